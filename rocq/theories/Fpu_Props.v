(** Theorems: the feasibility pump heuristic (C115 - C118). *)
From Verif Require Import Base Arr Oad_Model Fpu_Model Fpu_Spec Fpu_Proofs.
#[local] Open Scope Q_scope.

(** ** C115 *)
(** x0 + x1 + x2 = 1 with x1 fixed at 0: rounding (1/2, 0, 1/2) sets x1 to 1. *)
Definition exFix := mkProb [true; true; true] [Fin 0; Fin 0; Fin 0] [Fin 1; Fin 0; Fin 1] [(Fin 1, Fin 1)]
  [(0%nat, 0%nat, 1); (0%nat, 1%nat, 1); (0%nat, 2%nat, 1)] (1 # 1000000).
(** The same row with variables in [-1,1]: rounding (-9/10, 19/20, 19/20) aborts. *)
Definition exNeg := mkProb [true; true; true] [Fin (-(1)); Fin (-(1)); Fin (-(1))] [Fin 1; Fin 1; Fin 1] [(Fin 1, Fin 1)]
  [(0%nat, 0%nat, 1); (0%nat, 1%nat, 1); (0%nat, 2%nat, 1)] (1 # 1000000).
Lemma three_sized P : length (p_ty P) = 3%nat -> length (p_lo P) = 3%nat -> length (p_up P) = 3%nat -> p_jac P = p_jac exFix -> p_tol P = 1 # 1000000 -> sized 3 P.
Proof.
  intros A B C D E. split; auto.
  - rewrite D. intros r c a [H|[H|[H|[]]]]; injection H as <- <- <-; lia.
  - rewrite E. split; [discriminate|reflexivity].
Qed.
Ltac three := intros [|[|[|[|i]]]]; cbn [nth_error]; try (intros; discriminate).
Lemma one_row_0 P r : p_g P = [(Fin 1, Fin 1)] -> one_row P r -> r = 0%nat.
Proof. intros E (a & b & H & _). rewrite E in H. destruct r as [|[|r]]; [reflexivity|discriminate H..]. Qed.
Theorem C115_refuted : ~ C115_full.
Proof.
  intros H. destruct (H 3%nat exFix [1 # 2; 0; 1 # 2]) as (x' & E & _ & G).
  - apply three_sized; reflexivity.
  - intros i l u. unfold is_int. cbn [exFix p_ty p_lo p_up]. revert i. three; intros _ X Y; injection X as <-; injection Y as <-; exists 0%Z; cbn; split; discriminate.
  - reflexivity.
  - intros i v l u. cbn [exFix p_lo p_up]. revert i. three; intros X Y Z; injection X as <-; injection Y as <-; injection Z as <-; cbn; split; discriminate.
  - intros r R. apply one_row_0 in R; [|reflexivity]. subst r. reflexivity.
  - vm_compute in E. injection E as <-. destruct (G 1%nat 1 eq_refl eq_refl) as [_ B]. destruct (B (Fin 0) (Fin 0) eq_refl eq_refl) as [_ U]. cbn in U. apply U. reflexivity.
Qed.
Print Assumptions C115_refuted.
(** The abort, at a point inside the bounds satisfying the row. *)
Theorem C115_abort : sized 3 exNeg /\ has_int exNeg /\ in_box exNeg [- (9 # 10); 19 # 20; 19 # 20] /\
  (forall r, one_row exNeg r -> row_val (p_jac exNeg) r [- (9 # 10); 19 # 20; 19 # 20] == 1) /\
  round exNeg [- (9 # 10); 19 # 20; 19 # 20] = AssertFail.
Proof.
  split; [apply three_sized; reflexivity|]. split; [|split; [|split]].
  - intros i l u. unfold is_int. cbn [exNeg p_ty p_lo p_up]. revert i. three; intros _ X Y; injection X as <-; injection Y as <-; exists 0%Z; cbn; split; discriminate.
  - intros i v l u. cbn [exNeg p_lo p_up]. revert i. three; intros X Y Z; injection X as <-; injection Y as <-; injection Z as <-; cbn; split; discriminate.
  - intros r R. apply one_row_0 in R; [|reflexivity]. subst r. reflexivity.
  - vm_compute. reflexivity.
Qed.
Print Assumptions C115_abort.
(** It works if the integer columns of such rows have lower bound 0 and upper bound at
    least 1. *)
Theorem C115_partial : forall n P x, sized n P -> has_int P -> length x = n -> in_box P x ->
  (forall r, one_row P r -> row_val (p_jac P) r x <= 1) ->
  (forall r i a l u, one_row P r -> In ((r, i), a) (p_jac P) -> nth_error (p_lo P) i = Some l -> nth_error (p_up P) i = Some u -> l = Fin 0 /\ (is_int P i -> up_ok u 1)) ->
  rounds_well n P x.
Proof.
  intros n P x SZ HI LX IB RV TB. unfold rounds_well, round.
  destruct (sos_rows_run n P x SZ LX) with (g := p_g P) (r := 0%nat) (x1 := x) as (x1 & E & AF).
  - intros r c a OR I. pose proof (sz_jac n P SZ r c a I) as LC. destruct (nth_some c x) as [v V]; [lia|].
    destruct (nth_some c (p_lo P)) as [l L]; [rewrite (sz_lo n P SZ); lia|]. destruct (nth_some c (p_up P)) as [u U]; [rewrite (sz_up n P SZ); lia|].
    rewrite (nth_error_nth _ _ 0 V). destruct (IB c v l u V L U) as [VL _]. destruct (TB r c a l u OR I L U) as [-> _]. exact VL.
  - exact RV.
  - intros k p K. exact K.
  - split; [reflexivity|]. intros i. left. reflexivity.
  - rewrite E. cbn [bind]. apply (round_after n P x x1 SZ HI LX IB AF).
    intros i l u (r & a & OR & I & II) L U. destruct (TB r i a l u OR I L U) as [-> UP]. split; [cbn; lra|]. exact (UP II).
Qed.
Print Assumptions C115_partial.
(** Without rows of that kind nothing more is needed. *)
Theorem C115_no_row_partial : forall n P x, sized n P -> has_int P -> length x = n -> in_box P x -> (forall r, ~ one_row P r) -> rounds_well n P x.
Proof. intros n P x SZ HI LX IB NO. apply C115_partial; auto; intros r; intros; exfalso; eapply NO; eassumption. Qed.
Print Assumptions C115_no_row_partial.
Definition exSos := mkProb [true; true; true] [Fin 0; Fin 0; Fin 0] [Fin 1; Fin 1; Fin 1] [(Fin 1, Fin 1)]
  [(0%nat, 0%nat, 1); (0%nat, 1%nat, 1); (0%nat, 2%nat, 1)] (1 # 1000000).
Example C115_example : round exSos [1 # 4; 1 # 4; 1 # 2] = Ok [0; 1; 0] /\ rounds_well 3 exSos [1 # 4; 1 # 4; 1 # 2].
Proof.
  split; [vm_compute; reflexivity|]. apply C115_partial.
  - apply three_sized; reflexivity.
  - intros i l u. unfold is_int. cbn [exSos p_ty p_lo p_up]. revert i. three; intros _ X Y; injection X as <-; injection Y as <-; exists 0%Z; cbn; split; discriminate.
  - reflexivity.
  - intros i v l u. cbn [exSos p_lo p_up]. revert i. three; intros X Y Z; injection X as <-; injection Y as <-; injection Z as <-; cbn; split; discriminate.
  - intros r R. apply one_row_0 in R; [|reflexivity]. subst r. discriminate.
  - intros r i a l u R I. apply one_row_0 in R; [|reflexivity]. subst r. destruct I as [I|[I|[I|[]]]]; injection I as <- <-; cbn; intros X Y; injection X as <-; injection Y as <-; split; auto; intros _; discriminate.
Qed.

(** ** C116 *)
Definition starts (e : env) (val : Q) : Prop := v_nsol e = 0%nat \/ val < big.
Lemma solution_run n P good O srt rnd fin f e x0 val buf : sized n P -> world n P good O srt -> good x0 -> starts e val ->
  solution P O srt rnd fin f e (Some x0) val buf = Ok (mkRes 0 val buf [] None) \/
  (v_node e = 0%nat /\ (v_pass e <= 1)%nat) /\
  exists x log c, good x /\ Forall (fun p => good_target P (fst p)) log /\ chain (p_tol P) log /\ (length log <= 200)%nat /\
    fix_ints (ints P) x (mkCols (p_lo P) (p_up P)) = Ok c /\
    solution P O srt rnd fin f e (Some x0) val buf =
      match fin c with
      | None => Ok (mkRes 0 val buf log (Some c))
      | Some x => if Qltb (f x) val then Ok (mkRes 1 (f x) x log (Some c)) else Ok (mkRes 0 val buf log (Some c))
      end.
Proof.
  intros SZ WO GX ST. unfold solution. cbv zeta. destruct (negb (Nat.eqb (v_node e) 0) || Nat.ltb 1 (v_pass e))%bool eqn:E1; [left; reflexivity|].
  destruct (negb (Nat.eqb (v_nsol e) 0) && negb (v_adv e))%bool eqn:E2; [left; reflexivity|]. right.
  apply orb_false_iff in E1 as [E1 E1']. apply negb_false_iff, Nat.eqb_eq in E1. apply Nat.ltb_ge in E1'. split; [auto|].
  destruct (iterate_run n P good O srt rnd SZ WO 200 0 x0 [] GX (Forall_nil _) (chain0 _)) as (w & E & A & B & C & D). cbn [length Nat.add] in D.
  change (old_of P []) with (old_none (length (ints P))) in E.
  destruct (fix_run n (ints P) (w_x w) (mkCols (p_lo P) (p_up P))) as (c & EC & _).
  { exact (wo_len _ _ _ _ _ WO _ A). } { exact (sz_lo n P SZ). } { exact (sz_up n P SZ). } { exact (ints_lt n P SZ). } { apply int_from_nodup. }
  exists (w_x w), (w_log w), c. repeat split; auto.
  assert (CK : (if Nat.eqb (v_nsol e) 0 then Ok tt else chk (Qltb val big)) = Ok tt).
  { destruct ST as [ST|ST]; [rewrite ST; reflexivity|]. apply Qltb_lt in ST. rewrite ST. destruct (Nat.eqb _ 0); reflexivity. }
  rewrite CK. cbn [bind]. rewrite E. cbn [bind]. rewrite EC. cbn [bind]. reflexivity.
Qed.
Theorem C116 : forall n P good O srt rnd fin f e x0 val buf, sized n P -> world n P good O srt -> good x0 -> starts e val ->
  exists r, solution P O srt rnd fin f e (Some x0) val buf = Ok r /\ (length (r_log r) <= 200)%nat /\
    forall t h, In (t, h) (r_log r) -> good_target P t.
Proof.
  intros n P good O srt rnd fin f e x0 val buf SZ WO GX ST. destruct (solution_run n P good O srt rnd fin f e x0 val buf SZ WO GX ST) as [->|(_ & x & log & c & _ & B & _ & D & _ & ->)].
  - eexists. split; [reflexivity|]. cbn. split; [lia|contradiction].
  - assert (G : forall t h, In (t, h) log -> good_target P t) by (intros t h I; rewrite Forall_forall in B; exact (B _ I)).
    destruct (fin c) as [y|]; [destruct (Qltb (f y) val)|]; eexists; (split; [reflexivity|]); auto.
Qed.
Print Assumptions C116.
(** One variable in [0,1] whose projections lie in [2/5, 3/5]. *)
Definition exP := mkProb [true] [Fin 0] [Fin 1] [] [] (1 # 1000000).
Definition exO (k : nat) (t : list Q) : Q * list Q := (2 # 5, match t with v :: _ => if Qltb v (1 # 2) then [2 # 5] else [3 # 5] | [] => [2 # 5] end).
Definition exG (x : list Q) : Prop := x = [2 # 5] \/ x = [3 # 5].
Lemma exP_sized : sized 1 exP.
Proof. split; cbn; try reflexivity; [contradiction|split; [discriminate|reflexivity]]. Qed.
Lemma exP_world : world 1 exP exG exO (fun _ _ => 0%nat).
Proof.
  split.
  - intros x [-> | ->]; reflexivity.
  - intros x G. apply C115_no_row_partial.
    + exact exP_sized.
    + intros [|i] l u; unfold is_int; cbn; [|destruct i; discriminate]. intros _ X Y. injection X as <-. injection Y as <-. exists 0%Z. cbn. split; discriminate.
    + destruct G as [-> | ->]; reflexivity.
    + intros [|i] v l u; cbn; [|destruct G as [-> | ->]; destruct i; discriminate]. intros X Y Z. injection Y as <-. injection Z as <-.
      destruct G as [-> | ->]; injection X as <-; cbn; split; discriminate.
    + intros r (a & b & H & _). destruct r; discriminate H.
  - intros k [|v t]; unfold exO, exG; cbn [snd]; [auto|]. destruct (Qltb v (1 # 2)); auto.
  - intros k [|s sc] H; [exfalso; apply H; reflexivity|cbn; lia].
Qed.
Definition exEnv := mkEnv 0 1 0 false.
Definition exRun (k : nat) : outcome (list (list Q * how)) :=
  do w <- iterate exP exO (fun _ _ => 0%nat) (fun _ _ => 0) k 0 (mkPump [2 # 5] (old_none 1) []); Ok (w_log w).
Example C116_example : exRun 3 = Ok [([1], Perturbed); ([1], Flipped); ([0], Rounded)].
Proof. vm_compute. reflexivity. Qed.

(** When the pump stops: after 200 projections, at an integral point, or next to a target;
    and not before. *)
Lemma nfrac_zero n P x y : sized n P -> length x = n -> pick (ints P) x = Ok y -> (nfrac (p_tol P) y = 0%nat <-> all_int P x).
Proof.
  intros SZ LX EY. assert (PK : forall i v, In i (ints P) -> nth_error x i = Some v -> In v y).
  { clear SZ LX. generalize dependent (ints P). intros l. revert y. induction l as [|j l IH]; intros y E i v I X; [contradiction|].
    cbn [pick] in E. apply bind_ok in E as (w & EW & E). apply bind_ok in E as (r & ER & E). injection E as <-.
    destruct I as [<-|I]; [left; unfold rd in EW; rewrite X in EW; congruence|right; exact (IH r ER i v I X)]. }
  assert (PC : forall v, In v y -> exists i, In i (ints P) /\ nth_error x i = Some v).
  { clear SZ LX PK. generalize dependent (ints P). intros l. revert y. induction l as [|j l IH]; intros y E v I; cbn [pick] in E.
    - injection E as <-. contradiction.
    - apply bind_ok in E as (w & EW & E). apply bind_ok in E as (r & ER & E). injection E as <-. destruct I as [<-|I].
      + exists j. split; [left; reflexivity|]. unfold rd in EW. destruct (nth_error x j); [congruence|discriminate EW].
      + destruct (IH r ER v I) as (i & A & B). exists i. split; [right; exact A|exact B]. }
  unfold nfrac. split.
  - intros H i v II X. apply isint_true. destruct (isint (p_tol P) v) eqn:E; [reflexivity|]. exfalso.
    assert (I : In v (filter (fun v => negb (isint (p_tol P) v)) y)).
    { apply filter_In. rewrite E. split; [|reflexivity]. apply (PK i v); [|exact X]. apply ints_int. exact II. }
    destruct (filter _ y); [contradiction|discriminate H].
  - intros H. destruct (filter _ y) as [|v l] eqn:E; [reflexivity|]. exfalso.
    assert (I : In v (filter (fun v => negb (isint (p_tol P) v)) y)) by (rewrite E; left; reflexivity).
    apply filter_In in I as [I N]. destruct (PC v I) as (i & II & X). rewrite (isint_conv (p_tol P) v) in N; [discriminate N|apply (sz_tol n P SZ)|].
    apply (H i); [apply ints_int; exact II|exact X].
Qed.
Lemma iterate_stop n P good O srt rnd x0 : sized n P -> world n P good O srt -> forall k it w w', length (w_log w) = it -> w_x w = point O x0 (w_log w) -> good (w_x w) ->
  iterate P O srt rnd k it w = Ok w' -> exists l, w_log w' = l ++ w_log w /\
    (length l = k \/ all_int P (point O x0 (w_log w')) \/ (l <> [] /\ reached O (w_log w'))) /\
    forall l1 l2, l1 <> [] -> l = l1 ++ l2 -> ~ all_int P (point O x0 (l2 ++ w_log w)) /\ (l2 <> [] -> ~ reached O (l2 ++ w_log w)).
Proof.
  intros SZ WO. induction k as [|k IH]; intros it w w' LL XP GX H; cbn [iterate] in H; apply bind_ok in H as (y & EY & H).
  - assert (w' = w) as -> by (destruct (Nat.eqb _ 0); congruence). exists []. split; [reflexivity|]. split; [left; reflexivity|].
    intros [|p l1] l2 A B; [contradiction|discriminate B].
  - pose proof (nfrac_zero n P (w_x w) y SZ (wo_len _ _ _ _ _ WO _ GX) EY) as NF. destruct (Nat.eqb (nfrac (p_tol P) y) 0) eqn:E0.
    + apply Nat.eqb_eq in E0. injection H as <-. exists []. split; [reflexivity|]. split; [right; left; rewrite <- XP; apply NF; exact E0|].
      intros [|p l1] l2 A B; [contradiction|discriminate B].
    + apply Nat.eqb_neq in E0. assert (NI : ~ all_int P (point O x0 (w_log w))) by (rewrite <- XP; intros A; apply E0, NF, A).
      apply bind_ok in H as ([t h] & _ & H). cbv zeta in H.
      destruct (Qltb (fst (O it t)) (1 # 100000)) eqn:ER.
      * injection H as <-. exists [(t, h)]. cbn [w_log app]. split; [reflexivity|]. split; [right; right; split; [discriminate|]; cbn [reached]; rewrite LL; apply Qltb_lt; exact ER|].
        intros l1 l2 A B. destruct l1 as [|p l1]; [contradiction|]. injection B as <- B. destruct l1; [|discriminate B]. cbn [app] in B. subst l2.
        split; [exact NI|]. intros N. contradiction.
      * apply (IH (S it)) in H.
        -- cbn [w_log] in H. destruct H as (l & EL & ST & GO). exists (l ++ [(t, h)]). rewrite <- app_assoc. split; [exact EL|]. split.
           ++ destruct ST as [ST|[ST|[ST1 ST]]]; [left; rewrite app_length; cbn [length]; lia|right; left; exact ST|right; right; split; [|exact ST]].
              destruct l; discriminate.
           ++ intros l1 l2 A B. destruct l2 as [|p l2 _] using rev_ind; [split; [exact NI|intros N; contradiction]|].
              rewrite app_assoc in B. apply app_inj_tail in B as [B <-]. rewrite <- app_assoc. cbn [app].
              destruct (GO l1 l2 A B) as [G1 G2]. split; [exact G1|]. intros _. destruct l2 as [|q l2].
              ** cbn [app reached]. rewrite LL. apply Qltb_ge in ER. lra.
              ** apply G2. discriminate.
        -- cbn [w_log length]. rewrite LL. reflexivity.
        -- cbn [w_x w_log point]. rewrite LL. reflexivity.
        -- cbn [w_x]. apply (wo_nlp _ _ _ _ _ WO).
Qed.
Theorem C116_stops : forall n P good O srt rnd fin f e x0 val buf r, sized n P -> world n P good O srt -> good x0 ->
  solution P O srt rnd fin f e (Some x0) val buf = Ok r -> r_cols r <> None ->
  (length (r_log r) = 200%nat \/ all_int P (point O x0 (r_log r)) \/ reached O (r_log r)) /\
  forall l1 l2, l1 <> [] -> r_log r = l1 ++ l2 -> ~ all_int P (point O x0 l2) /\ ~ reached O l2.
Proof.
  intros n P good O srt rnd fin f e x0 val buf r SZ WO GX H NC. unfold solution in H. cbv zeta in H.
  destruct (negb (Nat.eqb (v_node e) 0) || Nat.ltb 1 (v_pass e))%bool; [injection H as <-; contradiction|].
  destruct (negb (Nat.eqb (v_nsol e) 0) && negb (v_adv e))%bool; [injection H as <-; contradiction|].
  apply bind_ok in H as (u & _ & H). apply bind_ok in H as (w & EW & H). apply bind_ok in H as (c & _ & H).
  assert (EL : r_log r = w_log w) by (destruct (fin c) as [z|]; [destruct (Qltb (f z) val)|]; injection H as <-; reflexivity). rewrite EL.
  apply (iterate_stop n P good O srt rnd x0 SZ WO) in EW; [|reflexivity|reflexivity|exact GX]. destruct EW as (l & E & ST & GO). cbn [w_log] in *. rewrite app_nil_r in E. subst l.
  split; [tauto|]. intros l1 l2 A B. destruct (GO l1 l2 A B) as [G1 G2]. rewrite app_nil_r in G1, G2. split; [exact G1|]. destruct l2; [exact (fun x => x)|apply G2; discriminate].
Qed.
Print Assumptions C116_stops.
(** Two projections; the second one reaches its target. *)
Example C116_stops_case :
  exists r, solution exP (fun k t => if Nat.eqb k 0 then (3 # 10, [7 # 10]) else (0, [1])) (fun _ _ => 0%nat) (fun _ _ => 0) (fun _ => None) (fun _ => 0) exEnv (Some [2 # 5]) 0 [0] = Ok r /\
    r_log r = [([1], Rounded); ([0], Rounded)] /\ r_cols r <> None.
Proof. eexists. split; [vm_compute; reflexivity|]. split; [reflexivity|discriminate]. Qed.

(** ** C117 *)
(** With random numbers below 3/10 the perturbation undoes the flip, and the same
    target is used again. *)
Lemma iterate_logs P O srt rnd : forall k it w w', iterate P O srt rnd k it w = Ok w' -> exists l, w_log w' = l ++ w_log w.
Proof.
  induction k as [|k IH]; intros it w w' H; cbn [iterate] in H; apply bind_ok in H as (y & _ & H).
  - destruct (Nat.eqb _ 0); injection H as <-; exists []; reflexivity.
  - destruct (Nat.eqb _ 0); [injection H as <-; exists []; reflexivity|]. apply bind_ok in H as ([t h] & _ & H). cbv zeta in H.
    destruct (Qltb _ _); [injection H as <-; exists [(t, h)]; reflexivity|]. apply IH in H as (l & ->). exists (l ++ [(t, h)]). cbn [w_log]. rewrite <- app_assoc. reflexivity.
Qed.
Lemma moving_tail tol : forall a b, moving tol (a ++ b) -> moving tol b.
Proof.
  induction a as [|[t h] a IH]; intros b H; [exact H|]. apply IH. cbn [app moving] in H. destruct (a ++ b) as [|[t1 h1] l]; [exact Logic.I|apply H].
Qed.
Theorem C117_refuted : ~ C117_full.
Proof.
  intros H.
  destruct (C116 1 exP exG exO (fun _ _ => 0%nat) (fun _ _ => 0) (fun _ => None) (fun _ => 0) exEnv [2 # 5] 0 [0] exP_sized exP_world (or_introl eq_refl) (or_introl eq_refl)) as (r & E & _).
  pose proof (H 1%nat exP exG exO (fun _ _ => 0%nat) (fun _ _ => 0) (fun _ => None) (fun _ => 0) exEnv [2 # 5] 0 [0] r exP_sized exP_world (or_introl eq_refl) E) as M.
  assert (LG : exists l, r_log r = l ++ [([1], Perturbed); ([1], Flipped); ([0], Rounded)]).
  { unfold solution in E. change (negb (Nat.eqb (v_node exEnv) 0) || Nat.ltb 1 (v_pass exEnv))%bool with false in E.
    change (negb (Nat.eqb (v_nsol exEnv) 0) && negb (v_adv exEnv))%bool with false in E. change (Nat.eqb (v_nsol exEnv) 0) with true in E. cbv iota zeta in E. cbn [bind] in E.
    apply bind_ok in E as (w & EW & E). apply bind_ok in E as (c & _ & E). injection E as <-. cbn [r_log].
    set (w3 := mkPump [3 # 5] (old_of exP [([1], Perturbed); ([1], Flipped); ([0], Rounded)]) [([1], Perturbed); ([1], Flipped); ([0], Rounded)]).
    assert (EW3 : iterate exP exO (fun _ _ => 0%nat) (fun _ _ => 0) 197 3 w3 = Ok w) by (rewrite <- EW; reflexivity).
    apply iterate_logs in EW3. exact EW3. }
  destruct LG as (l & LG). rewrite LG in M. apply moving_tail in M. destruct M as [(j & v & w & V & W & D) _].
  destruct j as [|j]; [|destruct j; discriminate V]. injection V as <-. injection W as <-. vm_compute in D. discriminate D.
Qed.
Print Assumptions C117_refuted.
(** How each target is related to the earlier ones: a rounded one differs from the one
    before; a flipped one is the rounding with at most one entry changed and differs from
    the three before that; a perturbed one moves every entry by at most one. *)
Theorem C117_partial : forall n P good O srt rnd fin f e x0 val buf r, sized n P -> world n P good O srt -> good x0 -> starts e val ->
  solution P O srt rnd fin f e (Some x0) val buf = Ok r -> chain (p_tol P) (r_log r).
Proof.
  intros n P good O srt rnd fin f e x0 val buf r SZ WO GX ST H. destruct (solution_run n P good O srt rnd fin f e x0 val buf SZ WO GX ST) as [E|(_ & x & log & c & _ & _ & C & _ & _ & E)]; rewrite E in H.
  - injection H as <-. constructor.
  - destruct (fin c) as [y|]; [destruct (Qltb (f y) val)|]; injection H as <-; exact C.
Qed.
Print Assumptions C117_partial.

(** ** C118 *)
(** What is handed back: a point the last NLP accepted with every integer column fixed at
    an integer (inside the bounds if the points met are), all other bounds as before;
    strictly better; otherwise the arguments are untouched.  Nothing happens except at
    the root in the first pass. *)
Theorem C118 : forall n P good O srt rnd fin f e x0 val buf r, sized n P -> world n P good O srt -> good x0 -> starts e val ->
  solution P O srt rnd fin f e (Some x0) val buf = Ok r ->
  (r_ret r = 0%nat -> r_val r = val /\ r_sol r = buf) /\
  (r_ret r <> 0%nat -> r_ret r = 1%nat /\ v_node e = 0%nat /\ (v_pass e <= 1)%nat /\ r_val r = f (r_sol r) /\ r_val r < val /\
    exists c, r_cols r = Some c /\ fin c = Some (r_sol r)) /\
  (forall c, r_cols r = Some c ->
    (forall i, is_int P i -> exists z, nth_error (k_lo c) i = Some (Fin (inject_Z z)) /\ nth_error (k_up c) i = Some (Fin (inject_Z z)) /\
       ((forall x v, good x -> nth_error x i = Some v -> forall l u, nth_error (p_lo P) i = Some l -> nth_error (p_up P) i = Some u -> lo_ok l v /\ up_ok u v) ->
        forall l u, nth_error (p_lo P) i = Some l -> nth_error (p_up P) i = Some u ->
          (forall a, l = Fin a -> exists k, a = inject_Z k) -> (forall b, u = Fin b -> exists k, b = inject_Z k) -> lo_ok l (inject_Z z) /\ up_ok u (inject_Z z))) /\
    (forall i, ~ is_int P i -> nth_error (k_lo c) i = nth_error (p_lo P) i /\ nth_error (k_up c) i = nth_error (p_up P) i)).
Proof.
  intros n P good O srt rnd fin f e x0 val buf r SZ WO GX ST H.
  destruct (solution_run n P good O srt rnd fin f e x0 val buf SZ WO GX ST) as [E|((N0 & P1) & x & log & c & A & _ & _ & _ & EC & E)]; rewrite E in H.
  - injection H as <-. cbn. split; [auto|]. split; [intros X; exfalso; apply X; reflexivity|discriminate].
  - split; [|split].
    + destruct (fin c) as [y|]; [destruct (Qltb (f y) val) eqn:LT|]; injection H as <-; cbn; auto; discriminate.
    + destruct (fin c) as [y|] eqn:FC; [destruct (Qltb (f y) val) eqn:LT|]; injection H as <-; cbn; intros X; try (exfalso; apply X; reflexivity).
      apply Qltb_lt in LT. repeat split; auto. exists c. auto.
    + intros c' C'. assert (CC : c' = c) by (destruct (fin c) as [y|]; [destruct (Qltb (f y) val)|]; injection H as <-; cbn in C'; congruence). subst c'. clear C'.
      pose proof (wo_len _ _ _ _ _ WO _ A) as LX.
      destruct (fix_run n (ints P) x (mkCols (p_lo P) (p_up P)) LX (sz_lo n P SZ) (sz_up n P SZ) (ints_lt n P SZ) (int_from_nodup _ _)) as (c1 & EC1 & _ & _ & FX & NF).
      rewrite EC in EC1. injection EC1 as <-. cbn [k_lo k_up] in NF. split.
      * intros i II. apply ints_int in II. destruct (nth_some i x) as [v V]; [rewrite LX; exact (ints_lt n P SZ i II)|].
        exists (nearest v). destruct (FX i v II V) as [F1 F2]. split; [exact F1|]. split; [exact F2|].
        intros GB l u Hl Hu WL WU. destruct (GB x v A V l u Hl Hu) as [VL VU]. pose proof (nearest_dist v) as D. apply Qabs_Qle_condition in D. unfold nearest in D |- *.
        split.
        -- destruct l as [|a|]; cbn [lo_ok] in *; auto. destruct (WL a eq_refl) as (k & ->). rewrite <- Zle_Qle.
           pose proof (Qlt_floor (v + (1 # 2))) as QF. assert (Z1 : inject_Z k < inject_Z (Qfloor (v + (1 # 2)) + 1)) by lra. rewrite <- Zlt_Qlt in Z1. lia.
        -- destruct u as [|b|]; cbn [up_ok] in *; auto. destruct (WU b eq_refl) as (k & ->). rewrite <- Zle_Qle.
           pose proof (Qfloor_le (v + (1 # 2))) as QF. assert (Z1 : inject_Z (Qfloor (v + (1 # 2))) < inject_Z (k + 1)) by (rewrite inject_Z_plus; change (inject_Z 1) with 1; lra). rewrite <- Zlt_Qlt in Z1. lia.
      * intros i NI. apply NF. intros I. apply NI, ints_int, I.
Qed.
Print Assumptions C118.
(** A relaxation that failed ends the heuristic at once; with a solution known and the
    advanced mode off nothing happens; with it on a value of 1e50 or more aborts. *)
Theorem C118_exits : forall P O srt rnd fin f e x0 val buf,
  (v_node e <> 0%nat \/ (1 < v_pass e)%nat \/ (v_nsol e <> 0%nat /\ v_adv e = false) -> solution P O srt rnd fin f e x0 val buf = Ok (mkRes 0 val buf [] None)) /\
  (v_node e = 0%nat -> (v_pass e <= 1)%nat -> v_nsol e <> 0%nat -> v_adv e = true -> big <= val -> solution P O srt rnd fin f e x0 val buf = AssertFail) /\
  (starts e val -> solution P O srt rnd fin f e None val buf = Ok (mkRes 0 val buf [] None)).
Proof.
  intros P O srt rnd fin f e x0 val buf. unfold solution. cbv zeta. split; [|split].
  - intros H. destruct (Nat.eqb (v_node e) 0) eqn:E1; cbn [negb orb]; [|reflexivity]. apply Nat.eqb_eq in E1.
    destruct (Nat.ltb 1 (v_pass e)) eqn:E2; [reflexivity|]. apply Nat.ltb_ge in E2. destruct H as [H|[H|[H1 H2]]]; [lia|lia|].
    apply Nat.eqb_neq in H1. rewrite H1, H2. reflexivity.
  - intros H1 H2 H3 H4 H5. apply Nat.eqb_eq in H1. apply Nat.ltb_ge in H2. apply Nat.eqb_neq in H3. apply Qltb_ge in H5. rewrite H1, H2, H3, H4, H5. reflexivity.
  - intros ST. destruct (_ || _)%bool; [reflexivity|]. destruct (_ && _)%bool; [reflexivity|].
    destruct ST as [ST|ST]; [rewrite ST; reflexivity|]. apply Qltb_lt in ST. rewrite ST. destruct (Nat.eqb _ 0); reflexivity.
Qed.
Print Assumptions C118_exits.
Example C118_example : (do r <- solution exSos (fun _ t => (0, t)) (fun _ _ => 0%nat) (fun _ _ => 0) (fun c => Some [0; 1; 0]) (fun x => nth 1 x 0) exEnv (Some [1 # 4; 1 # 4; 1 # 2]) 5 [0; 0; 0];
  Ok (r_ret r, r_val r, r_sol r, r_log r, r_cols r)) = Ok (1%nat, 1, [0; 1; 0], [([0; 1; 0], Rounded)], Some (mkCols [Fin 0; Fin 1; Fin 0] [Fin 0; Fin 1; Fin 0])).
Proof. vm_compute. reflexivity. Qed.
