(** Proofs about the order of nodes. *)
From Verif Require Import Base Tree_Model Ord_Model Ord_Spec.
Open Scope Z_scope.

Definition nt {A} (o : outcome A) : Prop := o <> Thrown.
Lemma nt_bind {A B} (a : outcome A) (f : A -> outcome B) : nt a -> (forall x, a = Ok x -> nt (f x)) -> nt (bind a f).
Proof. unfold nt. destruct a; cbn; intros X Y; try discriminate; try congruence. now apply Y. Qed.

Section P.
Variables (cd cb cp : cmp) (hpush : cmp -> list node -> node -> list node) (hpop hmake : cmp -> list node -> list node).
Variable H : cmp -> list node -> Prop.
Variables (Od : orders cd) (Ob : orders cb) (Op : orders cp) (L : heap_library hpush hpop hmake H).
Variable dyn : bool.
Notation TEST := (test cd cb cp dyn).
Notation HPUSH := (heap_push cd cb cp hpush dyn None).
Notation HPOP := (heap_pop cd cb cp hpop dyn None).
Notation SETC := (setComparison cd cb cp hmake dyn None).
Notation HBEST := (heap_best cd cb cp hpop dyn None).
Notation TBEST := (tree_best cd cb cp hpop dyn None).
Notation PALL := (push_all cd cb cp hpush dyn None).
Notation TCLEAN := (tree_clean cd cb cp hpush dyn None).
Notation PDIVE := (pushDive cd cb cp hpush dyn None).
Notation SETM := (setMode cd cb cp hpush hmake dyn None).
Notation PUSH := (push cd cb cp hpush dyn None).
Notation LOOP := (loop cd cb cp hpush dyn None).
Notation BTAIL := (best_tail cd cb cp hpush hpop dyn None).
Notation BEST := (bestNode cd cb cp hpush hpop hmake dyn None).
Notation CLEAN := (cleanTree cd cb cp hpush dyn None).
Notation NEWS := (newSolution cd cb cp hpush hmake dyn None).
Notation EV1000 := (every1000Nodes cd cb cp hpush hmake dyn None).
Notation STEP := (step cd cb cp hpush hpop hmake dyn None).
Notation RUNS := (runs cd cb cp hpush hpop hmake dyn None).

Lemma test_orders m c : TEST m = Ok c -> orders c.
Proof. unfold test. destruct dyn; [destruct m|]; intros E; try discriminate E; injection E as <-; assumption. Qed.
(** The heap is in order for the comparison in force. *)
Definition ok (s : srch) : Prop :=
  match TEST (s_mode s) with Ok c => H c (s_heap s) | _ => (length (s_heap s) <= 1)%nat end.
Lemma test_cases m : (exists c, TEST m = Ok c) \/ (TEST m = Thrown /\ dyn = true /\ m = Enlarge).
Proof. unfold test. destruct dyn; [destruct m|]; eauto. Qed.
Lemma small_ok s : (length (s_heap s) <= 1)%nat -> ok s.
Proof.
  unfold ok. destruct (test_cases (s_mode s)) as [[c ->]|(-> & _)]; [|auto].
  destruct (s_heap s) as [|x [|y t]]; cbn [length]; intros X; [apply (lib_nil _ _ _ _ L)|apply (lib_one _ _ _ _ L)|lia].
Qed.
Lemma wh_wh s a b : with_heap (with_heap s a) b = with_heap s b.
Proof. reflexivity. Qed.
Lemma wh_id s : with_heap s (s_heap s) = s.
Proof. now destruct s. Qed.

Lemma heap_push_spec s x s' : HPUSH s x = Ok s' ->
  exists h, s' = with_heap s h /\ Permutation h (x :: s_heap s) /\ (ok s -> ok s').
Proof.
  unfold heap_push. destruct (s_heap s) as [|y t] eqn:E.
  - intros X. injection X as <-. exists [x]. split; [reflexivity|]. split; [constructor; constructor|]. intros _. apply small_ok. cbn. lia.
  - intros X. apply bind_ok in X. destruct X as (c & T & X). injection X as <-. eexists. split; [reflexivity|].
    split; [apply (lib_push_all _ _ _ _ L)|]. unfold ok. cbn [s_mode with_heap s_heap]. unfold view in T. rewrite T, E.
    intros X. apply (lib_push _ _ _ _ L); [eapply test_orders; eauto|assumption].
Qed.
Lemma push_all_spec l : forall s s', PALL l s = Ok s' ->
  exists h, s' = with_heap s h /\ Permutation h (l ++ s_heap s) /\ (ok s -> ok s').
Proof.
  induction l as [|x t IH]; cbn [push_all]; intros s s' X.
  - injection X as <-. exists (s_heap s). rewrite wh_id. cbn. auto.
  - apply bind_ok in X. destruct X as (s1 & X1 & X). apply heap_push_spec in X1. destruct X1 as (h1 & -> & P1 & K1).
    apply IH in X. destruct X as (h2 & -> & P2 & K2). exists h2. rewrite wh_wh in *. split; [reflexivity|]. split; [|auto].
    rewrite P2. cbn [with_heap s_heap]. rewrite P1. cbn. symmetry. apply Permutation_middle.
Qed.
Lemma pushDive_spec s s' : PDIVE s = Ok s' ->
  exists h, s' = with_heap (with_dive s []) h /\ Permutation h (held s) /\ (ok s -> ok s').
Proof. intros X. apply push_all_spec in X. destruct X as (h & -> & P & K). exists h. split; [reflexivity|]. split; [exact P|]. intros O. apply K. exact O. Qed.
Lemma heap_push_ok c s x : TEST (s_mode s) = Ok c -> exists s', HPUSH s x = Ok s'.
Proof. intros T. unfold heap_push. destruct (s_heap s); [eauto|]. unfold view. rewrite T. cbn. eauto. Qed.
Lemma push_all_ok c l : forall s, TEST (s_mode s) = Ok c -> exists s', PALL l s = Ok s'.
Proof.
  induction l as [|x t IH]; cbn [push_all]; intros s T; [eauto|].
  destruct (heap_push_ok c s x T) as [s1 E]. rewrite E. cbn. apply heap_push_spec in E. destruct E as (h & -> & _). now apply IH.
Qed.
Lemma setComparison_spec s s' : SETC s = Ok s' -> exists h, s' = with_heap s h /\ Permutation h (s_heap s) /\ ok s'.
Proof.
  unfold setComparison. destruct (s_heap s) as [|x [|y t]] eqn:E; intros X.
  - injection X as <-. exists (s_heap s). rewrite wh_id, E. split; [reflexivity|]. split; [constructor|]. apply small_ok. rewrite E. cbn; lia.
  - injection X as <-. exists (s_heap s). rewrite wh_id, E. split; [reflexivity|]. split; [reflexivity|]. apply small_ok. rewrite E. cbn; lia.
  - apply bind_ok in X. destruct X as (c & T & X). injection X as <-. eexists. split; [reflexivity|]. split; [apply (lib_make_all _ _ _ _ L)|].
    unfold ok. cbn [s_mode with_heap s_heap]. unfold view in T. rewrite T. apply (lib_make _ _ _ _ L). eapply test_orders; eauto.
Qed.
Lemma setComparison_ok c s : TEST (s_mode s) = Ok c -> exists s', SETC s = Ok s'.
Proof. intros T. unfold setComparison, view. destruct (s_heap s) as [|x [|y t]]; [eauto|eauto|]. rewrite T. cbn. eauto. Qed.

Lemma mode_eqb_eq a b : mode_eqb a b = true <-> a = b.
Proof. destruct a, b; cbn; split; congruence. Qed.
Lemma setMode_same s : SETM s (s_mode s) = Ok s.
Proof. unfold setMode. rewrite (proj2 (mode_eqb_eq _ _) eq_refl). reflexivity. Qed.
Lemma setMode_spec s m s' : SETM s m = Ok s' -> m <> s_mode s ->
  exists h, s' = mkS h [] (s_board s) (s_back s - 1) (s_bfs s) (s_back s) (s_depth s) m /\ Permutation h (held s) /\ ok s'.
Proof.
  unfold setMode. intros X N. destruct (mode_eqb m (s_mode s)) eqn:E; [apply mode_eqb_eq in E; congruence|].
  apply bind_ok in X. destruct X as (s1 & X1 & X). apply pushDive_spec in X1. destruct X1 as (h1 & -> & P1 & _).
  apply setComparison_spec in X. destruct X as (h2 & -> & P2 & K). exists h2. split; [reflexivity|]. split; [|exact K].
  rewrite P2. cbn. rewrite P1. reflexivity.
Qed.
Lemma setMode_ok s m c : TEST m = Ok c -> exists s', SETM s m = Ok s'.
Proof.
  intros T. unfold setMode. destruct (mode_eqb m (s_mode s)); [eauto|]. unfold pushDive.
  destruct (push_all_ok c (s_dive (with_md s m)) (with_dive (with_md s m) []) T) as [s1 E]. rewrite E. cbn [bind].
  apply push_all_spec in E. destruct E as (h & -> & _). apply (setComparison_ok c). exact T.
Qed.

(** ** The heap's best node *)
Lemma heap_pop_spec c x t s s' : TEST (s_mode s) = Ok c -> ok s -> s_heap s = x :: t -> HPOP s = Ok s' ->
  exists h, s' = with_heap s h /\ Permutation h t /\ ok s'.
Proof.
  intros T K E. unfold heap_pop, view. rewrite E. destruct t as [|y u].
  - intros X. injection X as <-. exists []. split; [reflexivity|]. split; [constructor|]. apply small_ok. cbn; lia.
  - rewrite T. cbn [bind]. intros X. injection X as <-. unfold ok in K. rewrite T, E in K.
    destruct (lib_pop _ _ _ _ L c x (y :: u) (test_orders _ _ T) K) as [K' P]. eexists. split; [reflexivity|]. split; [exact P|].
    unfold ok. cbn [with_heap s_mode s_heap]. rewrite T. exact K'.
Qed.
Lemma heap_best_spec c0 cut : forall f s s' e, TEST (s_mode s) = Ok c0 -> ok s -> (length (s_heap s) <= f)%nat ->
  HBEST f cut s = Ok (s', e) ->
  exists h, s' = with_heap s h /\ ok s' /\ Forall (fun y => (cut <= nobj y)%Q) (e_drop e) /\
    match e_ret e with
    | Some x => Permutation (s_heap s) (x :: e_drop e ++ h) /\ (nobj x < cut)%Q /\ none_better c0 x h
    | None => h = [] /\ Permutation (s_heap s) (e_drop e)
    end.
Proof.
  induction f as [|f IH]; intros s s' e T K Lf; cbn [heap_best].
  - intros X. injection X as <- <-. exists (s_heap s). rewrite wh_id. destruct (s_heap s) eqn:E; [|cbn in Lf; lia]. cbn. auto.
  - destruct (s_heap s) as [|x t] eqn:E.
    + intros X. injection X as <- <-. exists (s_heap s). rewrite wh_id, E. cbn. auto.
    + intros X. apply bind_ok in X. destruct X as (s1 & X1 & X).
      destruct (heap_pop_spec c0 x t s s1 T K E X1) as (h1 & -> & P1 & K1).
      destruct (Qle_bool cut (nobj x)) eqn:QE.
      * apply bind_ok in X. destruct X as ((s2 & e2) & X2 & X). injection X as <- <-.
        apply IH in X2; [|exact T|exact K1|cbn [with_heap s_heap]; rewrite (Permutation_length P1); cbn [length] in Lf; lia].
        destruct X2 as (h2 & -> & K2 & D2 & R). exists h2. rewrite wh_wh in *. split; [reflexivity|]. split; [exact K2|]. cbn [e_drop e_ret].
        split; [constructor; [now apply Qleb_le|exact D2]|]. cbn [with_heap s_heap] in R.
        destruct (e_ret e2) as [y|].
        -- destruct R as (P & Q1 & NB). split; [|auto]. rewrite <- P1, P. change ((x :: e_drop e2) ++ h2) with (x :: (e_drop e2 ++ h2)). apply perm_swap.
        -- destruct R as (-> & P). split; [reflexivity|]. rewrite <- P1, P. reflexivity.
      * injection X as <- <-. exists h1. split; [reflexivity|]. split; [exact K1|]. cbn [e_drop e_ret]. split; [constructor|].
        split; [cbn; now rewrite P1|]. split; [now apply Qleb_gt|]. intros y Y. unfold ok in K. rewrite T, E in K.
        apply (lib_top _ _ _ _ L c0 x t (test_orders _ _ T) K). now apply (Permutation_in _ P1).
Qed.
Lemma heap_best_nt c0 cut : forall f s, TEST (s_mode s) = Ok c0 -> nt (HBEST f cut s).
Proof.
  induction f as [|f IH]; intros s T; cbn [heap_best]; [discriminate|].
  destruct (s_heap s) as [|x t] eqn:E; [discriminate|]. apply nt_bind.
  - unfold heap_pop. rewrite E. destruct t; [discriminate|]. unfold view. rewrite T. discriminate.
  - intros s1 X. assert (M : s_mode s1 = s_mode s).
    { revert X. unfold heap_pop. rewrite E. destruct t; [intros X; injection X as <-; reflexivity|]. unfold view. rewrite T. intros X. injection X as <-. reflexivity. }
    destruct (Qle_bool cut (nobj x)); [|discriminate]. apply nt_bind; [apply IH; now rewrite M|]. intros [s2 e2] _. discriminate.
Qed.

(** ** The dive *)
Definition frame (s s' : srch) : Prop :=
  s_mode s' = s_mode s /\ s_bfs s' = s_bfs s /\ s_back s' = s_back s /\ s_depth s' = s_depth s /\ s_board s' = s_board s.
Lemma loop_spec cut : forall f s s' r, (exists c, TEST (s_mode s) = Ok c) -> ok s -> LOOP f cut s = Ok (s', r) ->
  frame s s' /\ ok s' /\
  match r with
  | Some x => exists pre, s_dive s = pre ++ x :: s_dive s' /\ Permutation (held s) (x :: held s') /\ (nobj x <= cut)%Q /\
               Forall (fun y => (cut < nobj y)%Q) pre
  | None => s_dive s' = [] /\ Permutation (held s) (held s')
  end.
Proof.
  induction f as [|f IH]; intros s s' r T K; cbn [loop]; [discriminate|].
  destruct (s_dive s) as [|x dv] eqn:E.
  { intros X. injection X as <- <-. split; [repeat split|]. split; [exact K|]. split; [exact E|reflexivity]. }
  destruct (negb (ndepth x - s_board (with_dive s dv) <=? s_depth (with_dive s dv))) eqn:DG; [discriminate|].
  apply negb_false_iff, Z.leb_le in DG. change (ndepth x - s_board s <= s_depth s) in DG.
  intros X. apply bind_ok in X. destruct X as ((s1 & n1) & X1 & X). apply bind_ok in X. destruct X as ((s2 & n2) & X2 & X).
  assert (A1 : frame s s1 /\ ok s1 /\ s_dive s1 = dv /\
     match n1 with Some y => y = x /\ (nobj x <= cut)%Q /\ s_heap s1 = s_heap s
                 | None => (cut < nobj x)%Q /\ Permutation (s_heap s1) (x :: s_heap s) \/ Permutation (s_heap s1) (x :: s_heap s) /\ s_depth s < ndepth x - s_board s end).
  { destruct (Qltb cut (nobj x)) eqn:QE.
    { apply bind_ok in X1. destruct X1 as (s3 & X3 & X1). injection X1 as <- <-. apply heap_push_spec in X3. destruct X3 as (h & -> & P & K3).
      split; [repeat split|]. split; [apply K3; exact K|]. split; [reflexivity|]. left. split; [now apply Qltb_lt|exact P]. }
    destruct (s_depth (with_dive s dv) <? ndepth x - s_board (with_dive s dv)) eqn:ZE.
    { apply bind_ok in X1. destruct X1 as (s3 & X3 & X1). injection X1 as <- <-. apply heap_push_spec in X3. destruct X3 as (h & -> & P & K3).
      split; [repeat split|]. split; [apply K3; exact K|]. split; [reflexivity|]. right. split; [exact P|]. apply Z.ltb_lt in ZE. exact ZE. }
    apply Qltb_ge in QE. destruct (Nat.ltb (nleft x) (nbr x)); injection X1 as <- <-; (split; [repeat split|]; split; [exact K|]; split; [reflexivity|]; auto). }
  clear X1. destruct A1 as (F1 & K1 & D1 & R1). destruct F1 as (M1 & F1).
  assert (A2 : frame s1 s2 /\ ok s2 /\
     match n2 with Some y => n1 = Some y /\ s2 = s1
                 | None => Permutation (held s2) ((match n1 with Some y => [y] | None => [] end) ++ held s1) /\ (n1 = None -> s_dive s2 = dv /\ s2 = s1 \/ s_dive s2 = []) /\ (n1 <> None -> s_dive s2 = []) end).
  { destruct (Z.leb (s_back s1) (s_nback s1)).
    - apply bind_ok in X2. destruct X2 as (s3 & X3 & X2). apply pushDive_spec in X3. destruct X3 as (h & -> & P & K3).
      destruct n1 as [y|].
      + apply bind_ok in X2. destruct X2 as (s4 & X4 & X2). injection X2 as <- <-. apply heap_push_spec in X4. destruct X4 as (h4 & -> & P4 & K4).
        split; [repeat split|]. split; [apply K4; apply K3; exact K1|]. split; [cbn; rewrite P4; cbn; now rewrite P|]. split; [discriminate|reflexivity].
      + injection X2 as <- <-. split; [repeat split|]. split; [apply K3; exact K1|]. split; [cbn; exact P|]. split; [intros _; right; reflexivity|congruence].
    - injection X2 as <- <-. split; [repeat split|]. split; [exact K1|]. destruct n1; [auto|]. split; [reflexivity|]. split; [intros _; left; auto|congruence]. }
  clear X2. destruct A2 as ((M2 & F2) & K2 & R2).
  assert (Hs : Permutation (held s) (x :: dv ++ s_heap s)) by (unfold held; rewrite E; reflexivity).
  destruct n2 as [y|].
  - injection X as <- <-. destruct R2 as (-> & ->). destruct R1 as (-> & LE & HE).
    split; [split; [exact M1|exact F1]|]. split; [exact K1|]. exists []. rewrite D1. split; [reflexivity|]. split; [unfold held; rewrite E, D1, HE; reflexivity|]. split; [exact LE|constructor].
  - destruct R2 as (P2 & N2 & S2).
    apply IH in X; [|rewrite M2, M1; exact T|exact K2]. destruct X as ((M3 & F3) & K3 & R3).
    assert (FF : frame s s').
    { destruct F1 as (a1 & a2 & a3 & a4), F2 as (b1 & b2 & b3 & b4), F3 as (d1 & d2 & d3 & d4). repeat split; congruence. }
    split; [exact FF|]. split; [exact K3|].
    assert (PH : Permutation (held s) (held s2)).
    { rewrite Hs, P2. destruct n1 as [y|].
      - destruct R1 as (-> & _ & HE). unfold held. rewrite D1, HE. reflexivity.
      - assert (P : Permutation (s_heap s1) (x :: s_heap s)) by (destruct R1 as [[_ P]|[P _]]; exact P).
        cbn. unfold held. rewrite D1, P. apply Permutation_middle. }
    destruct r as [y|].
    + destruct R3 as (pre & DP & PP & LE & FA). destruct n1 as [z|].
      { rewrite (S2 ltac:(discriminate)) in DP. destruct pre; discriminate DP. }
      destruct (N2 eq_refl) as [[DE ->]|DE]; [|rewrite DE in DP; destruct pre; discriminate DP].
      exists (x :: pre). rewrite <- DE, DP. split; [reflexivity|]. split; [rewrite PH; exact PP|]. split; [exact LE|].
      constructor; [|exact FA]. destruct R1 as [[Q1 _]|[_ Q1]]; [exact Q1|].
      exfalso. lia.
    + destruct R3 as (DE & PP). split; [exact DE|]. rewrite PH; exact PP.
Qed.
Lemma loop_nt c0 cut : forall f s, TEST (s_mode s) = Ok c0 -> nt (LOOP f cut s).
Proof.
  induction f as [|f IH]; intros s T; cbn [loop]; [discriminate|].
  destruct (s_dive s) as [|x dv] eqn:E; [discriminate|].
  destruct (negb _); [discriminate|].
  assert (HP : forall s1, s_mode s1 = s_mode s -> forall y, exists s2, HPUSH s1 y = Ok s2 /\ s_mode s2 = s_mode s).
  { intros s1 M y. destruct (heap_push_ok c0 s1 y) as [s2 E2]; [now rewrite M|]. exists s2. split; [exact E2|].
    apply heap_push_spec in E2. destruct E2 as (h & -> & _). exact M. }
  assert (S1 : forall r, r = (if Qltb cut (nobj x) then do s' <- HPUSH (with_dive s dv) x; Ok (with_nb s' (s_nback (with_dive s dv) + 1), None)
                 else if Z.ltb (s_depth (with_dive s dv)) (ndepth x - s_board (with_dive s dv)) then do s' <- HPUSH (with_dive s dv) x; Ok (with_nb s' (s_nback (with_dive s dv) + 1), None)
                 else if Nat.ltb (nleft x) (nbr x) then Ok (with_nb (with_dive s dv) (s_nback (with_dive s dv) + 1), Some x)
                 else Ok (with_dive s dv, Some x)) -> exists s1 n1, r = Ok (s1, n1) /\ s_mode s1 = s_mode s).
  { intros r ->. destruct (HP (with_dive s dv) eq_refl x) as (s2 & E2 & M2). rewrite E2. cbn [bind].
    destruct (Qltb cut (nobj x)); [eexists _, _; split; [reflexivity|exact M2]|]. destruct (Z.ltb _ _); [eexists _, _; split; [reflexivity|exact M2]|].
    destruct (Nat.ltb _ _); eexists _, _; split; reflexivity. }
  destruct (S1 _ eq_refl) as (s1 & n1 & E1 & M1). rewrite E1. cbn [bind]. clear S1 E1.
  apply nt_bind.
  - destruct (Z.leb _ _); [|discriminate]. apply nt_bind.
    + unfold pushDive. destruct (push_all_ok c0 (s_dive s1) (with_dive s1 [])) as [s2 ->]; [cbn; now rewrite M1|discriminate].
    + intros s2 P. apply pushDive_spec in P. destruct P as (h & -> & _). destruct n1; [|discriminate].
      destruct (HP (with_heap (with_dive s1 []) h) M1 n) as (s3 & -> & _). discriminate.
  - intros [s2 n2] X. destruct n2; [discriminate|]. apply IH.
    assert (M2 : s_mode s2 = s_mode s); [|now rewrite M2].
    destruct (Z.leb _ _) in X.
    + apply bind_ok in X. destruct X as (s3 & X3 & X). apply pushDive_spec in X3. destruct X3 as (h & -> & _).
      destruct n1.
      * destruct (HP (with_heap (with_dive s1 []) h) M1 n) as (s4 & E4 & M4). rewrite E4 in X. cbn in X. injection X as <-. exact M4.
      * injection X as <-. exact M1.
    + injection X as <- _. exact M1.
Qed.

(** ** bestNode *)
(** What a dive or the start of one may hand out. *)
Definition find_result (cut : Q) (s s' : srch) (e : seen) : Prop :=
  exists x, e_ret e = Some x /\
   ((exists pre, s_dive s = pre ++ x :: s_dive s' /\ Permutation (held s) (x :: held s') /\ (nobj x <= cut)%Q /\
       Forall (fun y => (cut < nobj y)%Q) pre /\ e_drop e = []) \/
    (s_dive s' = [] /\ Permutation (held s) (x :: e_drop e ++ held s') /\ (nobj x < cut)%Q /\
       Forall (fun y => (cut <= nobj y)%Q) (e_drop e) /\ none_better cd x (held s'))).
Lemma test_find : TEST FindSolutions = Ok cd.
Proof. unfold test. now destruct dyn. Qed.
Lemma tail_find cut s s' e : s_mode s = FindSolutions -> ok s -> BTAIL cut s = Ok (s', e) ->
  find_result cut s s' e /\ ok s' /\ s_mode s' = FindSolutions /\ s_back s' = s_back s /\ s_bfs s' = s_bfs s /\ s_depth s' = s_depth s.
Proof.
  intros M K. unfold best_tail. rewrite M. cbn [bind]. destruct (negb _); [discriminate|]. intros X.
  assert (T : TEST (s_mode s) = Ok cd) by (rewrite M; apply test_find).
  apply bind_ok in X. destruct X as ((s1 & r) & X1 & X). apply loop_spec in X1; [|eauto|exact K].
  destruct X1 as ((M1 & F2 & F3 & F4 & F5) & K1 & R1). destruct r as [x|].
  - injection X as <- <-. destruct R1 as (pre & D & P & LE & FA). split; [|split; [exact K1|rewrite M1; auto 10]]. exists x. split; [reflexivity|]. left. exists pre. auto.
  - destruct R1 as (D & P). apply bind_ok in X. destruct X as ((s2 & e2) & X2 & X).
    apply (heap_best_spec cd) in X2; [|rewrite M1; exact T|exact K1|auto]. destruct X2 as (h & -> & K2 & FD & R).
    destruct (e_ret e2) as [x|]; [|discriminate]. injection X as <- <-. destruct R as (P2 & LT & NB).
    cbn [s_mode s_back s_bfs s_depth with_heap]. split; [|split; [exact K2|rewrite M1; auto 10]]. exists x. split; [reflexivity|]. right. cbn [s_dive with_heap]. split; [exact D|].
    unfold held in *. cbn [s_dive s_heap with_heap e_drop]. rewrite D in *. cbn [app] in *. rewrite P, P2. auto.
Qed.
(** In the late modes. *)
Definition late_result (c0 : cmp) (cut : Q) (s s' : srch) (e : seen) : Prop :=
  exists lost x, e_ret e = Some x /\ s_dive s' = [] /\ Permutation (held s) (lost :: x :: e_drop e ++ held s') /\
    (nobj lost < cut)%Q /\ (nobj x < cut)%Q /\ Forall (fun y => (cut <= nobj y)%Q) (e_drop e) /\
    (forall y, In y (x :: held s') -> c0 lost y = false) /\ none_better c0 x (held s').
Lemma none_better_perm c x l l' : Permutation l l' -> none_better c x l -> none_better c x l'.
Proof. intros P N y Y. apply N. eapply Permutation_in; [symmetry; exact P|exact Y]. Qed.
Lemma tail_late c0 cut s s' e : mode_late (s_mode s) = true -> TEST (s_mode s) = Ok c0 -> ok s -> BTAIL cut s = Ok (s', e) ->
  late_result c0 cut s s' e /\ ok s' /\ s_mode s' = s_mode s /\ s_dive s' = [] /\ s_back s' = s_back s /\ s_bfs s' = s_bfs s /\ s_depth s' = s_depth s.
Proof.
  intros LM T K. unfold best_tail. intros X. apply bind_ok in X. destruct X as ((s1 & d) & X1 & X).
  assert (B : s_dive s = [] /\ exists e1, TBEST cut s = Ok (s1, e1) /\ d = e_drop e1).
  { destruct (s_mode s); try discriminate LM; (destruct (s_dive s); [|discriminate]; split; [reflexivity|];
    apply bind_ok in X1; destruct X1 as ((sa & ea) & Xa & X1); injection X1 as <- <-; exists ea; auto). }
  destruct B as (D & e1 & B & ->). clear X1.
  destruct (negb _); [discriminate|]. apply (heap_best_spec c0) in B; [|exact T|exact K|auto]. destruct B as (h & -> & K1 & FD & R).
  cbn [with_heap s_dive] in X. rewrite D in X. cbn [length] in X.
  apply bind_ok in X. destruct X as ((s2 & r) & X2 & X).
  assert (Y : s2 = with_heap s h /\ r = None). { cbn [loop with_heap s_dive] in X2. rewrite D in X2. injection X2 as <- <-. auto. }
  destruct Y as (-> & ->). clear X2. apply bind_ok in X. destruct X as ((s3 & e3) & X3 & X).
  apply (heap_best_spec c0) in X3; [|exact T|exact K1|auto]. destruct X3 as (h3 & -> & K3 & FD3 & R3).
  destruct (e_ret e3) as [x|] eqn:E3; [|discriminate]. injection X as <- <-. cbn [s_mode s_back s_bfs s_depth s_dive with_heap].
  split; [|split; [exact K3|]; rewrite D; auto 10].
  destruct R3 as (P3 & LT3 & NB3). cbn [with_heap s_heap] in P3.
  destruct (e_ret e1) as [lost|] eqn:E1.
  - destruct R as (P1 & LT1 & NB1). exists lost, x. split; [reflexivity|]. cbn [s_dive with_heap]. split; [exact D|].
    unfold held in *. cbn [s_dive s_heap with_heap e_drop]. rewrite D. cbn [app].
    split. { rewrite P1, P3. apply perm_skip. rewrite <- app_assoc. symmetry. apply (Permutation_middle (e_drop e1) (e_drop e3 ++ h3) x). }
    split; [exact LT1|]. split; [exact LT3|]. split; [apply Forall_app; auto|]. split; [|exact NB3].
    intros y Y. apply NB1. eapply Permutation_in; [symmetry; exact P3|]. destruct Y as [->|Y]; [left; reflexivity|right; apply in_or_app; auto].
  - destruct R as (-> & _). apply Permutation_nil in P3. discriminate P3.
Qed.

Definition inv (s : srch) : Prop := ok s /\ (mode_late (s_mode s) = true -> s_dive s = []).
Lemma inv_init mb md : inv (srch_init mb md).
Proof. split; [apply small_ok; cbn; lia|discriminate]. Qed.
Lemma enlarge_find s : s_mode s = Enlarge -> ok s -> ok (with_md s FindSolutions).
Proof.
  intros M K. destruct dyn eqn:DE.
  - apply small_ok. unfold ok in K. rewrite M in K. unfold test in K. rewrite DE in K. exact K.
  - unfold ok in *. unfold test in *. rewrite DE in *. exact K.
Qed.
Definition best_result (cut : Q) (s s' : srch) (e : seen) : Prop :=
  match s_mode s with
  | Enlarge =>
      (exists x d, s_dive s = d ++ [x] /\ ndepth x <= s_bfs s /\ e_ret e = Some x /\ e_drop e = [] /\ s' = with_dive s d) \/
      (s_mode s' = FindSolutions /\ (s_dive s = [] \/ exists x d, s_dive s = d ++ [x] /\ s_bfs s < ndepth x) /\
       exists x, e_ret e = Some x /\ s_dive s' = [] /\ Permutation (held s) (x :: e_drop e ++ held s') /\ (nobj x < cut)%Q /\
         Forall (fun y => (cut <= nobj y)%Q) (e_drop e) /\ none_better cd x (held s'))
  | FindSolutions => s_mode s' = FindSolutions /\ find_result cut s s' e
  | m => s_mode s' = m /\ exists c0, TEST m = Ok c0 /\ late_result c0 cut s s' e
  end.
Lemma best_spec cut s s' e : inv s -> BEST cut s = Ok (s', e) -> best_result cut s s' e /\ inv s' /\
  s_back s' = s_back s /\ s_bfs s' = s_bfs s /\ s_depth s' = s_depth s.
Proof.
  intros (K & LD). unfold bestNode, best_result. destruct (s_mode s) eqn:M.
  - destruct (rev (s_dive s)) as [|x rd] eqn:R.
    + intros X. assert (D : s_dive s = []) by (rewrite <- (rev_involutive (s_dive s)), R; reflexivity).
      apply tail_find in X; [|reflexivity|apply enlarge_find; auto]. destruct X as (F & K' & M' & G). split; [|split; [split; [exact K'|rewrite M'; discriminate]|exact G]].
      right. split; [exact M'|]. split; [auto|]. destruct F as (x & E & [F|F]).
      * exfalso. destruct F as (pre & F & _). cbn [with_md s_dive] in F. rewrite D in F. destruct pre; discriminate F.
      * exists x. split; [exact E|exact F].
    + assert (D : s_dive s = rev rd ++ [x]) by (rewrite <- (rev_involutive (s_dive s)), R; reflexivity).
      destruct (Z.ltb (s_bfs s) (ndepth x)) eqn:Z.
      * intros X. apply bind_ok in X. destruct X as (s1 & X1 & X). apply setMode_spec in X1; [|rewrite M; discriminate].
        destruct X1 as (h & -> & P & K1). apply tail_find in X; [|reflexivity|exact K1]. destruct X as (F & K' & M' & G).
        split; [|split; [split; [exact K'|rewrite M'; discriminate]|exact G]]. right. split; [exact M'|].
        split; [right; exists x, (rev rd); split; [exact D|now apply Z.ltb_lt]|]. destruct F as (y & E & [F|F]).
        { exfalso. destruct F as (pre & F & _). cbn [s_dive] in F. destruct pre; discriminate F. }
        exists y. split; [exact E|]. destruct F as (F1 & F2 & F3). split; [exact F1|]. split; [|exact F3]. rewrite <- P. exact F2.
      * intros X. injection X as <- <-. apply Z.ltb_ge in Z. split; [|split; [split; [exact K|cbn; rewrite M; discriminate]|auto]].
        left. exists x, (rev rd). auto.
  - intros X. apply tail_find in X; [|exact M|exact K]. destruct X as (F & K' & M' & G). split; [auto|]. split; [split; [exact K'|rewrite M'; discriminate]|exact G].
  - destruct (test_cases (s_mode s)) as [[c0 T]|(_ & _ & B)]; [|congruence].
    intros X. apply (tail_late c0) in X; [|rewrite M; reflexivity|exact T|exact K]. destruct X as (F & K' & M' & D' & G). rewrite M in *.
    split; [split; [exact M'|exists c0; auto]|]. split; [split; [exact K'|auto]|exact G].
  - destruct (test_cases (s_mode s)) as [[c0 T]|(_ & _ & B)]; [|congruence].
    intros X. apply (tail_late c0) in X; [|rewrite M; reflexivity|exact T|exact K]. destruct X as (F & K' & M' & D' & G). rewrite M in *.
    split; [split; [exact M'|exists c0; auto]|]. split; [split; [exact K'|auto]|exact G].
Qed.

Lemma perm_fold c l : forall a, Permutation (fold_left (hpush c) l a) (l ++ a).
Proof.
  induction l as [|x t IH]; intros a; cbn [fold_left app]; [reflexivity|]. rewrite IH, (lib_push_all _ _ _ _ L). symmetry. apply Permutation_middle.
Qed.
Lemma fold_H c l : orders c -> forall a, H c a -> H c (fold_left (hpush c) l a).
Proof. intros O. induction l as [|x t IH]; intros a A; cbn [fold_left]; [exact A|]. apply IH. now apply (lib_push _ _ _ _ L). Qed.
Lemma filter_len {A} (f : A -> bool) l : (length (filter f l) <= length l)%nat.
Proof. induction l as [|x t IH]; cbn; [lia|]. destruct (f x); cbn; lia. Qed.
Lemma clean_spec cut s s' d : inv s -> CLEAN cut s = Ok (s', d) ->
  inv s' /\ s_dive s' = [] /\ s_mode s' = s_mode s /\ s_back s' = s_back s /\ s_bfs s' = s_bfs s /\ s_depth s' = s_depth s /\
  Permutation (held s) (d ++ held s') /\ Forall (fun y => (cut <= nobj y)%Q) d.
Proof.
  intros (K & LD) X. apply bind_ok in X. destruct X as (s1 & X1 & X). apply pushDive_spec in X1. destruct X1 as (h & -> & P & K1). specialize (K1 K).
  assert (FD : forall l, Forall (fun y => (cut <= nobj y)%Q) (filter (fun x => Qle_bool cut (nobj x)) l)).
  { intros l. apply Forall_forall. intros y Y. apply filter_In in Y. now apply Qleb_le. }
  assert (FP : forall l, Permutation l (filter (fun x => Qle_bool cut (nobj x)) l ++ filter (fun x => negb (Qle_bool cut (nobj x))) l)).
  { induction l as [|x t IH]; [constructor|]. cbn. destruct (Qle_bool cut (nobj x)); cbn; [now constructor|]. rewrite IH at 1. apply Permutation_middle. }
  unfold tree_clean in X. cbn [s_heap with_heap] in X.
  assert (SM : (length h <= 1)%nat -> s' = with_heap (with_dive s []) (filter (fun x => negb (Qle_bool cut (nobj x))) h) -> d = filter (fun x => Qle_bool cut (nobj x)) h ->
     inv s' /\ s_dive s' = [] /\ s_mode s' = s_mode s /\ s_back s' = s_back s /\ s_bfs s' = s_bfs s /\ s_depth s' = s_depth s /\
     Permutation (held s) (d ++ held s') /\ Forall (fun y => (cut <= nobj y)%Q) d).
  { intros LE -> ->. split; [split; [apply small_ok; cbn [s_heap with_heap]; pose proof (filter_len (fun x => negb (Qle_bool cut (nobj x))) h); lia|reflexivity]|].
    repeat (split; [reflexivity|]). split; [|apply FD]. cbn. rewrite <- P. apply FP. }
  destruct h as [|x [|y t]].
  - injection X as <- <-. apply SM; [cbn; lia|reflexivity|reflexivity].
  - injection X as <- <-. apply SM; [cbn; lia|reflexivity|reflexivity].
  - apply bind_ok in X. destruct X as (c & T & X). injection X as <- <-.
    split. { split; [|reflexivity]. unfold ok. cbn [s_heap with_heap s_mode]. unfold view in T. cbn [s_mode with_heap] in T. rewrite T. apply fold_H; [eapply test_orders; eauto|apply (lib_nil _ _ _ _ L)]. }
    repeat (split; [reflexivity|]). split; [|exact (FD (x :: y :: t))]. unfold held at 2. cbn [s_dive s_heap with_heap with_dive app]. rewrite perm_fold, app_nil_r. rewrite <- P. exact (FP (x :: y :: t)).
Qed.
Lemma push_spec s x s' : inv s -> PUSH s x = Ok s' -> inv s' /\ s_mode s' = s_mode s /\ Permutation (held s') (x :: held s) /\
  s_back s' = s_back s /\ s_bfs s' = s_bfs s /\ s_depth s' = s_depth s /\ (mode_late (s_mode s) = false -> s' = with_dive s (x :: s_dive s)).
Proof.
  intros (K & LD) X. unfold push in X. destruct (s_mode s) eqn:M.
  1,2: injection X as <-; (split; [split; [exact K|cbn; rewrite M; discriminate]|]); (split; [exact M|]); (split; [reflexivity|]); auto.
  all: (apply bind_ok in X; destruct X as (s1 & X1 & X); apply heap_push_spec in X1; destruct X1 as (h & -> & P & K1);
    rewrite (LD eq_refl) in X; injection X as <-; split; [split; [auto|cbn; rewrite (LD eq_refl); auto]|]; split; [exact M|]; split;
    [unfold held; cbn [s_dive s_heap with_heap]; rewrite (LD eq_refl); exact P|]; repeat (split; [reflexivity|]); discriminate).
Qed.
Definition kept_opts (s s' : srch) : Prop := s_back s' = s_back s /\ s_bfs s' = s_bfs s /\ s_depth s' = s_depth s.
Lemma setMode_inv s m s' : inv s -> SETM s m = Ok s' -> inv s' /\ s_mode s' = m /\ Permutation (held s') (held s) /\ kept_opts s s'.
Proof.
  intros I X. destruct (mode_eqb m (s_mode s)) eqn:E.
  - apply mode_eqb_eq in E. subst m. rewrite setMode_same in X. injection X as <-. split; [exact I|]. split; [reflexivity|]. split; [reflexivity|repeat split].
  - apply setMode_spec in X; [|intros Y; apply mode_eqb_eq in Y; congruence]. destruct X as (h & -> & P & K). split; [split; [exact K|reflexivity]|].
    split; [reflexivity|]. split; [exact P|repeat split].
Qed.
Lemma news_true n s : dyn = true -> NEWS n s =
    (do s <- (match s_mode s with Enlarge => SETM s FindSolutions | _ => Ok s end);
        match s_mode s with
        | FindSolutions => if Z.leb 5 n then SETM s CloseBound else Ok s
        | _ => Ok s
        end).
Proof. intros D. unfold newSolution. rewrite D. reflexivity. Qed.
Lemma news_false n s : dyn <> true -> NEWS n s = Ok s.
Proof. intros D. unfold newSolution. destruct dyn; congruence. Qed.
Lemma ev_true k s : dyn = true -> EV1000 k s =
        match s_mode s with
        | LimitTreeSize => Ok s
        | _ => if Z.ltb 1000000 k then do s <- SETM s LimitTreeSize; SETC s else Ok s
        end.
Proof. intros D. unfold every1000Nodes. rewrite D. reflexivity. Qed.
Lemma ev_false k s : dyn <> true -> EV1000 k s = Ok s.
Proof. intros D. unfold every1000Nodes. destruct dyn; congruence. Qed.
Lemma if_true (a b : mode) : dyn = true -> (if dyn then a else b) = a.
Proof. intros ->. reflexivity. Qed.
Lemma if_false (a b : mode) : dyn <> true -> (if dyn then a else b) = b.
Proof. destruct dyn; congruence. Qed.
Lemma news_spec n s s' : inv s -> NEWS n s = Ok s' -> inv s' /\ Permutation (held s') (held s) /\ kept_opts s s' /\
  s_mode s' = (if dyn then match s_mode s with Enlarge | FindSolutions => if Z.leb 5 n then CloseBound else FindSolutions | m => m end else s_mode s).
Proof.
  intros I X. destruct (bool_dec dyn true) as [D|D].
  2: { rewrite (news_false n s D) in X. rewrite (if_false _ _ D). injection X as <-. split; [exact I|]. split; [reflexivity|]. split; [repeat split|reflexivity]. }
  rewrite (news_true n s D) in X. rewrite (if_true _ _ D).
  apply bind_ok in X. destruct X as (s1 & X1 & X).
  assert (A : inv s1 /\ Permutation (held s1) (held s) /\ kept_opts s s1 /\ s_mode s1 = match s_mode s with Enlarge => FindSolutions | m => m end).
  { destruct (s_mode s) eqn:M; try (injection X1 as <-; split; [exact I|]; split; [reflexivity|]; split; [repeat split|rewrite M; reflexivity]).
    apply setMode_inv in X1; [|exact I]. tauto. }
  destruct A as (I1 & P1 & (k1 & k2 & k3) & M1). clear X1. destruct (s_mode s1) eqn:E.
  - destruct (s_mode s); discriminate M1.
  - assert (G : forall m, match s_mode s with Enlarge | FindSolutions => m | mm => mm end = m) by (intros m; destruct (s_mode s); congruence || reflexivity).
    rewrite G. destruct (Z.leb 5 n).
    + apply setMode_inv in X; [|exact I1]. destruct X as (I2 & M2 & P2 & (q1 & q2 & q3)). split; [exact I2|]. split; [now rewrite P2|]. split; [repeat split; congruence|exact M2].
    + injection X as <-. split; [exact I1|]. split; [exact P1|]. split; [repeat split; auto|exact E].
  - injection X as <-. split; [exact I1|]. split; [exact P1|]. split; [repeat split; auto|]. rewrite E. destruct (s_mode s); congruence.
  - injection X as <-. split; [exact I1|]. split; [exact P1|]. split; [repeat split; auto|]. rewrite E. destruct (s_mode s); congruence.
Qed.
Lemma setc_inv s s' : inv s -> SETC s = Ok s' -> inv s' /\ s_mode s' = s_mode s /\ Permutation (held s') (held s) /\ kept_opts s s'.
Proof.
  intros (K & LD) X. apply setComparison_spec in X. destruct X as (h & -> & P & K'). split; [split; [exact K'|exact LD]|]. split; [reflexivity|].
  split; [unfold held; cbn; now rewrite P|repeat split].
Qed.
Lemma ev_spec k s s' : inv s -> EV1000 k s = Ok s' -> inv s' /\ Permutation (held s') (held s) /\ kept_opts s s' /\
  s_mode s' = (if dyn then if Z.ltb 1000000 k then LimitTreeSize else s_mode s else s_mode s).
Proof.
  intros I X. destruct (bool_dec dyn true) as [D|D].
  2: { rewrite (ev_false k s D) in X. rewrite (if_false _ _ D). injection X as <-. split; [exact I|]. split; [reflexivity|]. split; [repeat split|reflexivity]. }
  rewrite (ev_true k s D) in X. rewrite (if_true _ _ D).
  assert (G : forall s1, (if Z.ltb 1000000 k then do s <- SETM s LimitTreeSize; SETC s else Ok s) = Ok s1 -> inv s1 /\ Permutation (held s1) (held s) /\ kept_opts s s1 /\
            s_mode s1 = if Z.ltb 1000000 k then LimitTreeSize else s_mode s).
  { intros s1 Y. destruct (Z.ltb 1000000 k); [|injection Y as <-; split; [exact I|]; split; [reflexivity|]; split; [repeat split|reflexivity]].
    apply bind_ok in Y. destruct Y as (s2 & Y2 & Y). apply setMode_inv in Y2; [|exact I]. destruct Y2 as (I2 & M2 & P2 & (q1 & q2 & q3)).
    apply setc_inv in Y; [|exact I2]. destruct Y as (I3 & M3 & P3 & (r1 & r2 & r3)). split; [exact I3|]. split; [now rewrite P3|]. split; [repeat split; congruence|congruence]. }
  destruct (s_mode s) eqn:M; try (apply G; exact X).
  injection X as <-. split; [exact I|]. split; [reflexivity|]. split; [repeat split|]. rewrite M. destruct (Z.ltb 1000000 k); reflexivity.
Qed.

(** ** Steps *)
Definition next_mode (m : mode) (o : call) : mode -> Prop := fun m' =>
  match o with
  | CPush _ | CClean _ => m' = m
  | CBest _ => match m with Enlarge => m' = Enlarge \/ m' = FindSolutions | _ => m' = m end
  | CSol n _ => m' = if dyn then match m with Enlarge | FindSolutions => if Z.leb 5 n then CloseBound else FindSolutions | m => m end else m
  | CNodes k => m' = if dyn then if Z.ltb 1000000 k then LimitTreeSize else m else m
  end.
Lemma step_inv s o s' e : inv s -> STEP s o = Ok (s', e) -> inv s' /\ next_mode (s_mode s) o (s_mode s') /\ kept_opts s s'.
Proof.
  intros I. destruct o as [x|c|c|n c|k]; cbn [step next_mode].
  - intros X. apply bind_ok in X. destruct X as (s1 & X1 & X). injection X as <- <-. apply push_spec in X1; [|exact I]. unfold kept_opts. tauto.
  - intros X. apply best_spec in X; [|exact I]. destruct X as (R & I' & K). split; [exact I'|]. split; [|exact K]. unfold best_result in R. destruct (s_mode s) eqn:M; try tauto.
    destruct R as [(x & d & _ & _ & _ & _ & ->)|(R & _)]; [left; exact M|right; exact R].
  - intros X. apply bind_ok in X. destruct X as ((s1 & d) & X1 & X). injection X as <- <-. apply clean_spec in X1; [|exact I]. unfold kept_opts. tauto.
  - intros X. apply bind_ok in X. destruct X as ((s1 & d) & X1 & X). apply clean_spec in X1; [|exact I]. destruct X1 as (I1 & D1 & M1 & a1 & a2 & a3 & _).
    apply bind_ok in X. destruct X as (s2 & X2 & X). apply news_spec in X2; [|exact I1]. destruct X2 as (I2 & _ & (b1 & b2 & b3) & M2).
    apply bind_ok in X. destruct X as (s3 & X3 & X). apply setc_inv in X3; [|exact I2]. destruct X3 as (I3 & M3 & _ & (d1 & d2 & d3)). injection X as <- <-.
    split; [exact I3|]. split; [rewrite M3, M2, M1; destruct (s_mode s); reflexivity|repeat split; congruence].
  - intros X. apply bind_ok in X. destruct X as (s1 & X1 & X). injection X as <- <-. apply ev_spec in X1; [|exact I]. tauto.
Qed.
Lemma runs_inv l : forall s s' tr, inv s -> RUNS s l = Ok (s', tr) -> inv s' /\ kept_opts s s'.
Proof.
  induction l as [|o t IH]; cbn [runs]; intros s s' tr I X.
  - injection X as <- <-. split; [exact I|repeat split].
  - apply bind_ok in X. destruct X as ((s1 & e) & X1 & X). apply bind_ok in X. destruct X as ((s2 & es) & X2 & X). injection X as <- <-.
    apply step_inv in X1; [|exact I]. destruct X1 as (I1 & _ & (a1 & a2 & a3)). apply IH in X2; [|exact I1]. destruct X2 as (I2 & (b1 & b2 & b3)).
    split; [exact I2|repeat split; congruence].
Qed.
Lemma runs_app l1 : forall s s' l2 tr, RUNS s (l1 ++ l2) = Ok (s', tr) -> exists s1 t1 t2, RUNS s l1 = Ok (s1, t1) /\ RUNS s1 l2 = Ok (s', t2) /\ tr = t1 ++ t2.
Proof.
  induction l1 as [|o t IH]; intros s s' l2 tr X.
  - exists s, [], tr. auto.
  - cbn [runs app] in X. apply bind_ok in X. destruct X as ((s1 & e) & X1 & X). apply bind_ok in X. destruct X as ((s2 & es) & X2 & X). injection X as <- <-.
    apply IH in X2. destruct X2 as (s3 & t1 & t2 & R1 & R2 & ->). exists s3, (e :: t1), t2. cbn [runs]. rewrite X1. cbn [bind]. rewrite R1. auto.
Qed.

(** ** Throwing *)
Lemma best_nt cut s : nt (BEST cut s).
Proof.
  assert (BT : forall s1, (exists c, TEST (s_mode s1) = Ok c) -> nt (BTAIL cut s1)).
  { intros s1 (c & T). unfold best_tail. apply nt_bind.
    - destruct (s_mode s1) eqn:M; try discriminate; (destruct (s_dive s1); [|discriminate]; apply nt_bind;
        [apply (heap_best_nt c); rewrite M; exact T|intros [? ?] _; discriminate]).
    - intros (s2 & d) X. assert (M2 : s_mode s2 = s_mode s1).
      { destruct (s_mode s1) eqn:M; try (injection X as <- <-; exact M);
        (destruct (s_dive s1); [|discriminate]; apply bind_ok in X; destruct X as ((s3 & e3) & X3 & X); injection X as <- <-; unfold tree_best in X3; revert X3; 
         assert (HM : forall f sa sb e, HBEST f cut sa = Ok (sb, e) -> s_mode sb = s_mode sa);
         [clear; induction f as [|f IH]; intros sa sb e; cbn [heap_best]; [intros X; injection X as <- <-; reflexivity|];
          destruct (s_heap sa) as [|x t] eqn:E; [intros X; injection X as <- <-; reflexivity|]; intros X; apply bind_ok in X; destruct X as (sc & Xc & X);
          assert (MC : s_mode sc = s_mode sa) by (revert Xc; unfold heap_pop; rewrite E; destruct t; [intros Y; injection Y as <-; reflexivity|];
             intros Y; apply bind_ok in Y; destruct Y as (? & _ & Y); injection Y as <-; reflexivity);
          destruct (Qle_bool cut (nobj x)); [apply bind_ok in X; destruct X as ((sd & ed) & Xd & X); injection X as <- <-; apply IH in Xd; congruence|injection X as <- <-; exact MC]
         |intros X3; apply HM in X3; congruence]). }
      destruct (negb _); [discriminate|]. apply nt_bind; [apply (loop_nt c); now rewrite M2|].
      intros (s3 & r) X3. destruct r; [discriminate|].
      assert (M3 : s_mode s3 = s_mode s2).
      { clear -X3. revert X3. generalize (S (length (s_dive s2))) as f. intros f. revert s2. induction f as [|f IH]; intros s2; cbn [loop]; [discriminate|].
        destruct (s_dive s2) as [|x dv]; [intros X; injection X as <-; reflexivity|]. destruct (negb _); [discriminate|]. intros X.
        apply bind_ok in X. destruct X as ((sa & na) & Xa & X). apply bind_ok in X. destruct X as ((sb & nb) & Xb & X).
        assert (HPM : forall sp x sq, HPUSH sp x = Ok sq -> s_mode sq = s_mode sp).
        { intros sp y sq. unfold heap_push. destruct (s_heap sp); [intros Y; injection Y as <-; reflexivity|]. intros Y. apply bind_ok in Y. destruct Y as (? & _ & Y). injection Y as <-. reflexivity. }
        assert (PAM : forall l sp sq, PALL l sp = Ok sq -> s_mode sq = s_mode sp).
        { induction l as [|y t IHl]; cbn [push_all]; intros sp sq Y; [injection Y as <-; reflexivity|]. apply bind_ok in Y. destruct Y as (sr & Y1 & Y). apply IHl in Y. apply HPM in Y1. congruence. }
        assert (MA : s_mode sa = s_mode s2).
        { destruct (Qltb cut (nobj x)); [apply bind_ok in Xa; destruct Xa as (? & Y & Xa); injection Xa as <- <-; apply HPM in Y; exact Y|].
          destruct (Z.ltb _ _); [apply bind_ok in Xa; destruct Xa as (? & Y & Xa); injection Xa as <- <-; apply HPM in Y; exact Y|].
          destruct (Nat.ltb _ _); injection Xa as <- <-; reflexivity. }
        assert (MB : s_mode sb = s_mode sa).
        { destruct (Z.leb _ _); [|injection Xb as <- <-; reflexivity]. apply bind_ok in Xb. destruct Xb as (sr & Y & Xb). apply PAM in Y.
          destruct na; [apply bind_ok in Xb; destruct Xb as (st & Y2 & Xb); injection Xb as <- <-; apply HPM in Y2; rewrite Y2, Y; reflexivity|injection Xb as <- <-; exact Y]. }
        destruct nb; [discriminate|]. apply IH in X. congruence. }
      apply nt_bind; [apply (heap_best_nt c); now rewrite M3, M2|]. intros (s4 & e4) _. destruct (e_ret e4); discriminate. }
  unfold bestNode. assert (TF : exists c, TEST FindSolutions = Ok c) by (exists cd; apply test_find).
  destruct (s_mode s) eqn:M.
  - destruct (rev (s_dive s)) as [|x rd]; [apply BT; exact TF|]. destruct (Z.ltb _ _); [|discriminate].
    destruct (setMode_ok s FindSolutions cd test_find) as [s1 E]. rewrite E. cbn [bind]. apply BT. apply setMode_spec in E; [|congruence]. destruct E as (h & -> & _). exact TF.
  - apply BT. rewrite M. exact TF.
  - apply BT. destruct (test_cases (s_mode s)) as [T|(_ & _ & B)]; [exact T|congruence].
  - apply BT. destruct (test_cases (s_mode s)) as [T|(_ & _ & B)]; [exact T|congruence].
Qed.
Lemma push_all_enlarge l : forall s, TEST (s_mode s) = Thrown -> (length (s_heap s) <= 1)%nat ->
  (PALL l s = Thrown <-> (2 <= length l + length (s_heap s))%nat /\ l <> []).
Proof.
  induction l as [|x t IH]; cbn [push_all]; intros s T LE.
  - split; [discriminate|]. intros [_ X]. congruence.
  - unfold heap_push. destruct (s_heap s) as [|y u] eqn:E.
    + cbn [bind]. rewrite IH; [|exact T|cbn; lia]. cbn [with_heap s_heap length]. split.
      * intros [X _]. split; [lia|discriminate].
      * intros [X _]. split; [lia|]. destruct t; [cbn in X; lia|discriminate].
    + unfold view. rewrite T. cbn [bind]. cbn [length] in *. split; [intros _; split; [lia|discriminate]|auto].
Qed.
Lemma step_thrown s o : inv s ->
  (STEP s o = Thrown <-> dyn = true /\ s_mode s = Enlarge /\ cleans o = true /\ (2 <= length (held s))%nat).
Proof.
  intros I. pose proof I as (K & LD).
  assert (NS : forall n s1, nt (NEWS n s1)).
  { intros n s1. destruct (bool_dec dyn true) as [D|D]; [rewrite (news_true n s1 D)|rewrite (news_false n s1 D); discriminate].
    destruct (setMode_ok s1 FindSolutions cd test_find) as [s2 E].
    apply nt_bind; [destruct (s_mode s1); try discriminate; rewrite E; discriminate|]. intros s3 _. destruct (s_mode s3); try discriminate. destruct (Z.leb 5 n); [|discriminate].
    assert (TC : exists c, TEST CloseBound = Ok c) by (unfold test; destruct dyn; eauto). destruct TC as [c TC]. destruct (setMode_ok s3 CloseBound c TC) as [s4 ->]. discriminate. }
  assert (SC : forall s1, inv s1 -> nt (SETC s1)).
  { intros s1 (K1 & _). destruct (test_cases (s_mode s1)) as [[c T]|(T & _ & _)].
    - destruct (setComparison_ok c s1 T) as [s2 ->]. discriminate.
    - unfold ok in K1. rewrite T in K1. unfold setComparison. destruct (s_heap s1) as [|? [|? ?]]; try discriminate. cbn in K1; lia. }
  assert (CT : forall c, CLEAN c s = Thrown <-> dyn = true /\ s_mode s = Enlarge /\ (2 <= length (held s))%nat).
  { intros c. unfold cleanTree, pushDive. destruct (test_cases (s_mode s)) as [[c0 T]|(T & D & M)].
    - split.
      + intros X. exfalso. destruct (push_all_ok c0 (s_dive s) (with_dive s []) T) as [s1 E]. rewrite E in X. cbn [bind] in X.
        apply push_all_spec in E. destruct E as (h & -> & _). unfold tree_clean in X. cbn [s_heap with_heap] in X. destruct h as [|? [|? ?]]; try discriminate X.
        unfold view in X. cbn [s_mode with_heap with_dive] in X. rewrite T in X. discriminate X.
      + intros (D & M & _). rewrite M in T. unfold test in T. rewrite D in T. discriminate T.
    - unfold ok in K. rewrite T in K. pose proof (push_all_enlarge (s_dive s) (with_dive s []) T K) as PE. cbn [s_heap with_dive] in PE.
      assert (LH : (length (held s) = length (s_dive s) + length (s_heap s))%nat) by apply app_length. split.
      + intros X. split; [exact D|]. split; [exact M|]. rewrite LH. destruct (PALL (s_dive s) (with_dive s [])) as [s1| | | | | | |] eqn:E; try discriminate X.
        * cbn [bind] in X. exfalso. apply push_all_spec in E. destruct E as (h & -> & _ & KK). unfold tree_clean in X. cbn [s_heap with_heap] in X.
          assert (KS : ok (with_dive s [])) by (unfold ok; cbn [s_mode with_dive s_heap]; rewrite T; exact K). specialize (KK KS). unfold ok in KK. cbn [s_mode with_heap with_dive s_heap] in KK. rewrite T in KK.
          destruct h as [|? [|? ?]]; try discriminate X. cbn in KK. lia.
        * apply (proj1 PE) in E || idtac. apply PE. reflexivity.
      + intros (_ & _ & X). rewrite LH in X. rewrite (proj2 PE); [reflexivity|]. split; [exact X|]. intros E. rewrite E in X. cbn in X. lia. }
  destruct o as [x|c|c|n c|k]; cbn [step cleans].
  - split; [|intros (_ & _ & X & _); discriminate X]. intros X. exfalso.
    destruct (s_mode s) eqn:M; unfold push in X; rewrite M in X; try discriminate X;
    (destruct (test_cases (s_mode s)) as [[c0 T]|(_ & _ & M')]; [|congruence]; destruct (heap_push_ok c0 s x T) as [s1 E]; rewrite E in X; cbn [bind] in X;
     destruct (s_dive s); discriminate X).
  - split; [|intros (_ & _ & X & _); discriminate X]. intros X. exfalso. exact (best_nt c s X).
  - rewrite <- (and_assoc (s_mode s = Enlarge)). rewrite <- and_assoc. rewrite <- CT with (c := c) || idtac.
    split.
    + intros X. destruct (CLEAN c s) as [[s1 d]| | | | | | |] eqn:E; try discriminate X. pose proof (proj1 (CT c) E). tauto.
    + intros X. assert (Y : CLEAN c s = Thrown) by (apply CT; tauto). rewrite Y. reflexivity.
  - split.
    + intros X. destruct (CLEAN c s) as [[s1 d]| | | | | | |] eqn:E; try discriminate X.
      * exfalso. cbn [bind] in X. apply clean_spec in E; [|exact I]. destruct E as (I1 & _). revert X. apply nt_bind; [apply NS|]. intros s2 X2.
        apply news_spec in X2; [|exact I1]. apply nt_bind; [apply SC; tauto|]. intros s3 _. discriminate.
      * pose proof (proj1 (CT c) E). tauto.
    + intros X. assert (Y : CLEAN c s = Thrown) by (apply CT; tauto). rewrite Y. reflexivity.
  - split; [|intros (_ & _ & X & _); discriminate X]. intros X. exfalso. revert X. apply nt_bind; [|intros ? _; discriminate].
    destruct (bool_dec dyn true) as [D|D]; [rewrite (ev_true k s D)|rewrite (ev_false k s D); discriminate].
    assert (G : nt (if Z.ltb 1000000 k then do s <- SETM s LimitTreeSize; SETC s else Ok s)).
    { destruct (Z.ltb 1000000 k); [|discriminate]. assert (TC : exists c, TEST LimitTreeSize = Ok c) by (unfold test; destruct dyn; eauto). destruct TC as [c TC].
      destruct (setMode_ok s LimitTreeSize c TC) as [s4 E]. rewrite E. cbn [bind]. apply setMode_inv in E; [|exact I]. apply SC. tauto. }
    destruct (s_mode s); try exact G. discriminate.
Qed.
End P.
