(** Runs of the search, and the library used in the examples. *)
From Verif Require Import Base Tree_Model Ord_Model Ord_Spec Ord_Proofs.
Open Scope Z_scope.

(** ** The library of the examples *)
Lemma orders_asym c x y : orders c -> c x y = true -> c y x = false.
Proof. intros (I & T & _) X. destruct (c y x) eqn:E; [|reflexivity]. pose proof (T _ _ _ X E) as Y. rewrite I in Y. discriminate. Qed.
Lemma ins_perm c l x : Permutation (ins c l x) (x :: l).
Proof. destruct l as [|y t]; cbn; [reflexivity|]. destruct (c y x); [reflexivity|apply perm_swap]. Qed.
Lemma ins_top c l x : orders c -> top_first c l -> top_first c (ins c l x).
Proof.
  intros O. destruct l as [|y t]; cbn; [intros _ z []|]. intros N. destruct (c y x) eqn:E; cbn.
  - intros z [<-|Z]; [apply (orders_asym c); assumption|]. destruct (c x z) eqn:F; [|reflexivity].
    destruct O as (_ & T & _). rewrite <- (N z Z). symmetry. exact (T _ _ _ E F).
  - intros z [<-|Z]; [exact E|auto].
Qed.
Lemma make_perm c l : forall a, Permutation (fold_left (ins c) l a) (l ++ a).
Proof. induction l as [|x t IH]; intros a; cbn; [reflexivity|]. rewrite IH, ins_perm. symmetry. apply Permutation_middle. Qed.
Lemma make_top c l : orders c -> forall a, top_first c a -> top_first c (fold_left (ins c) l a).
Proof. intros O. induction l as [|x t IH]; intros a A; cbn; [exact A|]. apply IH, ins_top; assumption. Qed.
Lemma example_library : heap_library ins pop1 make1 top_first.
Proof.
  constructor.
  - intros c. exact Logic.I.
  - intros c x y [].
  - intros c x l _ T. exact T.
  - intros c h x O T. apply ins_top; assumption.
  - intros. apply ins_perm.
  - intros c x l O _. cbn. unfold make1. split; [apply make_top; [exact O|exact Logic.I]|]. rewrite make_perm, app_nil_r. reflexivity.
  - intros c l O. apply make_top; [exact O|exact Logic.I].
  - intros c l. unfold make1. rewrite make_perm, app_nil_r. reflexivity.
Qed.
Lemma orders_obj : orders by_obj.
Proof.
  unfold by_obj. split; [|split].
  - intros x. apply Qltb_ge. apply Qle_refl.
  - intros x y z A B. apply Qltb_lt in A, B. apply Qltb_lt. eapply Qlt_trans; eassumption.
  - intros x y z A. apply Qltb_lt in A. destruct (Qlt_le_dec (nobj z) (nobj x)) as [D|D]; [left; now apply Qltb_lt|right].
    apply Qltb_lt. eapply Qlt_le_trans; eassumption.
Qed.
Lemma orders_depth : orders by_depth.
Proof.
  unfold by_depth. split; [|split].
  - intros x. apply Z.ltb_irrefl.
  - intros x y z A B. apply Z.ltb_lt in A, B. apply Z.ltb_lt. lia.
  - intros x y z A. apply Z.ltb_lt in A. rewrite !Z.ltb_lt. lia.
Qed.

(** ** Breadth-first phase *)
Section F.
Variables (cd cb cp : cmp) (hpush : cmp -> list node -> node -> list node) (hpop hmake : cmp -> list node -> list node).
Variable dyn : bool.
Notation STEP := (step cd cb cp hpush hpop hmake dyn None).
Notation RUNS := (runs cd cb cp hpush hpop hmake dyn None).
Definition wide (s : srch) : Prop := s_mode s = Enlarge /\ s_heap s = [] /\ s_bfs s = 4 /\ Forall (fun x => ndepth x <= 4) (s_dive s).
Lemma fifo l : forall s s' tr, wide s -> Forall shallow l -> RUNS s l = Ok (s', tr) ->
  wide s' /\ rev (s_dive s) ++ pushed_by l = handed_out tr ++ rev (s_dive s') /\ Forall (fun e => e_drop e = []) tr.
Proof.
  induction l as [|o t IH]; intros s s' tr W SH X; cbn [runs] in X.
  - injection X as <- <-. split; [exact W|]. cbn. rewrite app_nil_r. auto.
  - apply bind_ok in X. destruct X as ((s1 & e) & X1 & X). apply bind_ok in X. destruct X as ((s2 & es) & X2 & X). injection X as <- <-.
    inversion SH as [|? ? SO ST]; subst. destruct W as (M & HN & B & FD).
    destruct o as [x|c|c|n c|k]; cbn [shallow] in SO; try contradiction; cbn [step] in X1.
    + unfold push in X1. rewrite M in X1. injection X1 as <- <-. apply IH in X2; [|split; [exact M|]; split; [exact HN|]; split; [exact B|constructor; assumption]|exact ST].
      destruct X2 as (W2 & E & FE). split; [exact W2|]. split; [|constructor; [reflexivity|exact FE]]. cbn [with_dive s_dive rev] in E. rewrite <- app_assoc in E. exact E.
    + unfold bestNode in X1. rewrite M in X1. destruct (rev (s_dive s)) as [|x rd] eqn:R.
      * exfalso. assert (D : s_dive s = []) by (rewrite <- (rev_involutive (s_dive s)), R; reflexivity).
        unfold best_tail in X1. cbn [s_mode with_md bind] in X1. destruct (negb _); [discriminate|]. cbn in X1. rewrite D in X1. cbn in X1.
        unfold tree_best in X1. cbn in X1. rewrite HN in X1. cbn in X1. discriminate.
      * assert (D : s_dive s = rev rd ++ [x]) by (rewrite <- (rev_involutive (s_dive s)), R; reflexivity).
        rewrite D in FD. apply Forall_app in FD. destruct FD as (FD & FX). inversion FX as [|? ? DX _]; subst.
        rewrite B in X1. assert (Z.ltb 4 (ndepth x) = false) as Z4 by (apply Z.ltb_ge; exact DX). rewrite Z4 in X1. injection X1 as <- <-.
        apply IH in X2; [|split; [exact M|]; split; [exact HN|]; split; [exact B|exact FD]|exact ST]. destruct X2 as (W2 & E & FE).
        split; [exact W2|]. split; [|constructor; [reflexivity|exact FE]]. cbn [with_dive s_dive] in E. rewrite rev_involutive in E. cbn [app]. exact (f_equal (cons x) E).
Qed.
(** ** Comparisons that read the mode of the tree itself *)
Variable H : cmp -> list node -> Prop.
Variables (Od : orders cd) (Ob : orders cb) (Op : orders cp) (L : heap_library hpush hpop hmake H).
Lemma phases l : dyn = true -> forall s s' tr, inv cd cb cp H dyn s -> RUNS s l = Ok (s', tr) ->
  ((rank (s_mode s) <= rank (s_mode s'))%nat) /\
  (s_mode s' = LimitTreeSize <-> s_mode s = LimitTreeSize \/ many_nodes l) /\
  (s_mode s' = CloseBound <-> s_mode s <> LimitTreeSize /\ ~ many_nodes l /\ (s_mode s = CloseBound \/ many_solutions l)) /\
  (a_solution l -> s_mode s' <> Enlarge).
Proof.
  intros D. induction l as [|o t IH]; intros s s' tr I X; cbn [runs] in X.
  - injection X as <- <-. unfold many_nodes, many_solutions, a_solution. split; [lia|]. split; [|split].
    + split; [auto|]. intros [A|(k & [] & _)]. exact A.
    + split.
      * intros A. split; [congruence|]. split; [intros (k & [] & _)|auto].
      * intros (_ & _ & [A|(n & c & [] & _)]). exact A.
    + intros (n & c & []).
  - apply bind_ok in X. destruct X as ((s1 & e) & X1 & X). apply bind_ok in X. destruct X as ((s2 & es) & X2 & X). injection X as <- <-.
    apply (step_inv cd cb cp hpush hpop hmake H Od Ob Op L dyn) in X1; [|exact I]. destruct X1 as (I1 & N & _). destruct (IH _ _ _ I1 X2) as (R & A1 & A2 & A3).
    assert (MN : many_nodes (o :: t) <-> (exists k, o = CNodes k /\ 1000000 < k) \/ many_nodes t).
    { unfold many_nodes. split; [intros (k & [->|K] & G); [left|right]; eauto|intros [(k & -> & G)|(k & K & G)]; exists k; split; auto; [now left|now right]]. }
    assert (MS : many_solutions (o :: t) <-> (exists n c, o = CSol n c /\ 5 <= n) \/ many_solutions t).
    { unfold many_solutions. split; [intros (n & c & [->|K] & G); [left|right]; eauto|intros [(n & c & -> & G)|(n & c & K & G)]; exists n, c; split; auto; [now left|now right]]. }
    assert (AS : a_solution (o :: t) <-> (exists n c, o = CSol n c) \/ a_solution t).
    { unfold a_solution. split; [intros (n & c & [->|K]); [left|right]; eauto|intros [(n & c & ->)|(n & c & K)]; exists n, c; [now left|now right]]. }
    rewrite MN, MS, AS, A1, A2. clear A1 A2 MN MS AS.
    destruct o as [x|c|c|n c|k]; cbn [next_mode] in N.
    + rewrite N in *. split; [exact R|]. split; [|split].
      * split; [tauto|]. intros [A|[(k & K & _)|A]]; [tauto|discriminate K|tauto].
      * split; [intros (A & B & C); split; [exact A|]; split; [intros [(k & K & _)|G]; [discriminate K|tauto]|tauto]|].
        intros (A & B & C). split; [exact A|]. split; [tauto|]. destruct C as [C|[(n & c & K & _)|C]]; [tauto|discriminate K|tauto].
      * intros [(n & c & K)|A]; [discriminate K|auto].
    + assert (NL : (s_mode s1 = LimitTreeSize <-> s_mode s = LimitTreeSize) /\ (s_mode s1 = CloseBound <-> s_mode s = CloseBound) /\ (rank (s_mode s) <= rank (s_mode s1))%nat).
      { destruct (s_mode s); [destruct N as [-> | ->]| | |]; try rewrite N; cbn; repeat split; try congruence; try lia. }
      destruct NL as (NL & NC & NR). rewrite NL, NC. split; [lia|]. split; [|split].
      * split; [tauto|]. intros [A|[(k & K & _)|A]]; [tauto|discriminate K|tauto].
      * split; [intros (A & B & C); split; [tauto|]; split; [intros [(k & K & _)|G]; [discriminate K|tauto]|tauto]|].
        intros (A & B & C). split; [tauto|]. split; [tauto|]. destruct C as [C|[(n & c0 & K & _)|C]]; [tauto|discriminate K|tauto].
      * intros [(n & c0 & K)|A]; [discriminate K|auto].
    + rewrite N in *. split; [exact R|]. split; [|split].
      * split; [tauto|]. intros [A|[(k & K & _)|A]]; [tauto|discriminate K|tauto].
      * split; [intros (A & B & C); split; [exact A|]; split; [intros [(k & K & _)|G]; [discriminate K|tauto]|tauto]|].
        intros (A & B & C). split; [exact A|]. split; [tauto|]. destruct C as [C|[(n & c0 & K & _)|C]]; [tauto|discriminate K|tauto].
      * intros [(n & c0 & K)|A]; [discriminate K|auto].
    + rewrite (if_true dyn _ _ D) in N.
      assert (NL : (s_mode s1 = LimitTreeSize <-> s_mode s = LimitTreeSize) /\ (s_mode s1 = CloseBound <-> s_mode s = CloseBound \/ (s_mode s <> LimitTreeSize /\ 5 <= n)) /\ (rank (s_mode s) <= rank (s_mode s1))%nat /\ s_mode s1 <> Enlarge).
      { destruct (s_mode s), (Z.leb_spec 5 n); rewrite N; cbn; repeat split; try congruence; try lia; try tauto; try (intros [G|[G G']]; [congruence|lia]); try (right; split; [congruence|lia]); try (intros [G|[G G']]; congruence). }
      destruct NL as (NL & NC & NR & NE). rewrite NL, NC. split; [lia|]. split; [|split].
      * split; [tauto|]. intros [A|[(k & K & _)|A]]; [tauto|discriminate K|tauto].
      * split.
        -- intros (A & B & C). split; [tauto|]. split; [intros [(k & K & _)|G]; [discriminate K|tauto]|]. destruct C as [[C|[C C']]|C]; [tauto|right; left; eauto|tauto].
        -- intros (A & B & C). split; [tauto|]. split; [tauto|]. destruct C as [C|[(n' & c0 & K & G)|C]]; [tauto|injection K as <- <-; tauto|tauto].
      * intros _. intros E. assert (RR := R). rewrite E in RR. cbn in RR. destruct (s_mode s1); cbn in RR; try lia. congruence.
    + rewrite (if_true dyn _ _ D) in N. destruct (Z.ltb_spec 1000000 k) as [G|G].
      * rewrite N in *. cbn [rank] in *. split; [destruct (s_mode s2), (s_mode s); cbn in *; lia|]. split; [|split].
        -- split; [intros _; right; left; eauto|auto].
        -- split; [intros (A & _); congruence|]. intros (_ & B & _). exfalso. apply B. left. eauto.
        -- intros [(n & c0 & K)|A]; [discriminate K|auto].
      * rewrite N in *. split; [exact R|]. split; [|split].
        -- split; [tauto|]. intros [A|[(k' & K & G')|A]]; [tauto|injection K as <-; lia|tauto].
        -- split; [intros (A & B & C); split; [exact A|]; split; [intros [(k' & K & G')|G']; [injection K as <-; lia|tauto]|tauto]|].
           intros (A & B & C). split; [exact A|]. split; [tauto|]. destruct C as [C|[(n & c0 & K & _)|C]]; [tauto|discriminate K|tauto].
        -- intros [(n & c0 & K)|A]; [discriminate K|auto].
Qed.
Lemma phases_static l : dyn = false -> forall s s' tr, inv cd cb cp H dyn s -> (s_mode s = Enlarge \/ s_mode s = FindSolutions) -> RUNS s l = Ok (s', tr) ->
  s_mode s' = Enlarge \/ s_mode s' = FindSolutions.
Proof.
  intros D. induction l as [|o t IH]; intros s s' tr I M X; cbn [runs] in X; [injection X as <- <-; exact M|].
  apply bind_ok in X. destruct X as ((s1 & e) & X1 & X). apply bind_ok in X. destruct X as ((s2 & es) & X2 & X). injection X as <- <-.
  apply (step_inv cd cb cp hpush hpop hmake H Od Ob Op L dyn) in X1; [|exact I]. destruct X1 as (I1 & N & _). apply (IH _ _ _ I1) in X2; [exact X2|].
  assert (DN : dyn <> true) by congruence.
  destruct o as [x|c|c|n c|k]; cbn [next_mode] in N; try rewrite (if_false dyn _ _ DN) in N; try (rewrite N; exact M).
  destruct M as [M|M]; rewrite M in N; [exact N|right; exact N].
Qed.
(** No error from comparisons under the static strategy. *)
Lemma static_nt l : dyn = false -> forall s, inv cd cb cp H dyn s -> RUNS s l <> Thrown.
Proof.
  intros D. induction l as [|o t IH]; intros s I; cbn [runs]; [discriminate|].
  apply nt_bind.
  - intros X. apply (step_thrown cd cb cp hpush hpop hmake H Od Ob Op L dyn) in X; [|exact I]. destruct X as (X & _). congruence.
  - intros (s1 & e) X1. apply (step_inv cd cb cp hpush hpop hmake H Od Ob Op L dyn) in X1; [|exact I]. apply nt_bind; [apply IH; tauto|]. intros [s2 es] _. unfold nt. discriminate.
Qed.
End F.
(** ** Copies *)
Section C.
Variables (cd cb cp : cmp) (hpush : cmp -> list node -> node -> list node) (hpop hmake : cmp -> list node -> list node).
Lemma static_test o s : test cd cb cp false (view o s) = Ok cd.
Proof. reflexivity. Qed.
Lemma static_copy m l : forall s, runs cd cb cp hpush hpop hmake false (Some m) s l = runs cd cb cp hpush hpop hmake false None s l.
Proof. induction l as [|o t IH]; intros s; [reflexivity|]. cbn [runs]. change (step cd cb cp hpush hpop hmake false (Some m) s o) with (step cd cb cp hpush hpop hmake false None s o).
  destruct (step cd cb cp hpush hpop hmake false None s o) as [[s1 e]| | | | | | |]; reflexivity. Qed.
Variables (dyn : bool) (m : mode).
Notation "'HPU' o" := (heap_push cd cb cp hpush dyn o) (at level 9, o at level 8).
Notation "'HPO' o" := (heap_pop cd cb cp hpop dyn o) (at level 9, o at level 8).
Notation "'HBE' o" := (heap_best cd cb cp hpop dyn o) (at level 9, o at level 8).
Notation "'PAL' o" := (push_all cd cb cp hpush dyn o) (at level 9, o at level 8).
Notation "'LOO' o" := (loop cd cb cp hpush dyn o) (at level 9, o at level 8).
Notation "'STE' o" := (step cd cb cp hpush hpop hmake dyn o) (at level 9, o at level 8).
Notation "'RUN' o" := (runs cd cb cp hpush hpop hmake dyn o) (at level 9, o at level 8).
Ltac sub := match goal with E : s_mode _ = m |- _ => rewrite <- E end.
Lemma hp_c s x : s_mode s = m -> HPU (Some m) s x = HPU None s x.
Proof. intros <-. reflexivity. Qed.
Lemma hp_m s x s' : HPU None s x = Ok s' -> s_mode s' = s_mode s.
Proof. unfold heap_push. destruct (s_heap s); intros X; [injection X as <-; reflexivity|]. apply bind_ok in X. destruct X as (? & _ & X). injection X as <-. reflexivity. Qed.
Lemma pa_c l : forall s, s_mode s = m -> PAL (Some m) l s = PAL None l s.
Proof.
  induction l as [|x t IH]; intros s M; [reflexivity|]. cbn [push_all]. rewrite (hp_c s x M). destruct (HPU None s x) eqn:E; try reflexivity. cbn [bind]. apply IH. apply hp_m in E. congruence.
Qed.
Lemma pa_m l : forall s s', PAL None l s = Ok s' -> s_mode s' = s_mode s.
Proof.
  induction l as [|x t IH]; intros s s'; cbn [push_all]; intros X; [injection X as <-; reflexivity|]. apply bind_ok in X. destruct X as (s1 & X1 & X). apply IH in X. apply hp_m in X1. congruence.
Qed.
Lemma hpo_c s : s_mode s = m -> HPO (Some m) s = HPO None s.
Proof. intros <-. reflexivity. Qed.
Lemma hpo_m s s' : HPO None s = Ok s' -> s_mode s' = s_mode s.
Proof.
  unfold heap_pop. destruct (s_heap s) as [|x [|y t]]; intros X; [discriminate|injection X as <-; reflexivity|]. apply bind_ok in X. destruct X as (? & _ & X). injection X as <-. reflexivity.
Qed.
Lemma hb_c cut f : forall s, s_mode s = m -> HBE (Some m) f cut s = HBE None f cut s.
Proof.
  induction f as [|f IH]; intros s M; [reflexivity|]. cbn [heap_best]. destruct (s_heap s) as [|x t] eqn:E; [reflexivity|]. rewrite (hpo_c s M).
  destruct (HPO None s) as [s1| | | | | | |] eqn:E1; try reflexivity. cbn [bind]. destruct (Qle_bool _ _); [|reflexivity]. rewrite IH; [reflexivity|]. apply hpo_m in E1. congruence.
Qed.
Lemma hb_m cut f : forall s s' e, HBE None f cut s = Ok (s', e) -> s_mode s' = s_mode s.
Proof.
  induction f as [|f IH]; intros s s' e; cbn [heap_best]; intros X; [injection X as <- <-; reflexivity|]. destruct (s_heap s) as [|x t]; [injection X as <- <-; reflexivity|].
  apply bind_ok in X. destruct X as (s1 & X1 & X). apply hpo_m in X1. destruct (Qle_bool _ _); [|injection X as <- <-; exact X1].
  apply bind_ok in X. destruct X as ((s2 & e2) & X2 & X). injection X as <- <-. apply IH in X2. congruence.
Qed.
Lemma loop_c cut f : forall s, s_mode s = m -> LOO (Some m) f cut s = LOO None f cut s /\ forall s' r, LOO None f cut s = Ok (s', r) -> s_mode s' = m.
Proof.
  induction f as [|f IH]; intros s M; [split; [reflexivity|discriminate]|]. cbn [loop]. destruct (s_dive s) as [|x dv] eqn:E; [split; [reflexivity|intros s' r X; injection X as <- <-; exact M]|].
  destruct (negb _); [split; [reflexivity|discriminate]|]. rewrite !(hp_c (with_dive s dv) x M).
  match goal with |- bind ?a _ = _ /\ _ => assert (A : forall s1 n1, a = Ok (s1, n1) -> s_mode s1 = m); [|destruct a as [[s1 n1]| | | | | | |]; try (split; [reflexivity|discriminate])] end.
  { intros s1 n1 X. destruct (Qltb _ _); [|destruct (Z.ltb _ _)].
    1,2: apply bind_ok in X; destruct X as (s2 & X2 & X); injection X as <- <-; apply hp_m in X2; cbn in X2 |- *; congruence.
    destruct (Nat.ltb _ _); injection X as <- <-; exact M. }
  specialize (A _ _ eq_refl). cbn [bind]. unfold pushDive. rewrite (pa_c (s_dive s1) (with_dive s1 []) A).
  destruct (PAL None (s_dive s1) (with_dive s1 [])) as [s2| | | | | | |] eqn:P.
  2-8: (destruct (Z.leb _ _); [split; [reflexivity|discriminate]|]; cbn [bind]; destruct n1; [split; [reflexivity|intros s' r X; injection X as <- <-; exact A]|apply IH; exact A]).
  apply pa_m in P. cbn [with_dive s_mode] in P. assert (M2 : s_mode s2 = m) by congruence. cbn [bind].
  destruct (Z.leb _ _); cbn [bind].
  - destruct n1 as [y|]; cbn [bind]; [|apply IH; exact M2]. rewrite (hp_c s2 y M2). destruct (HPU None s2 y) as [s3| | | | | | |] eqn:E3; cbn [bind]; try (split; [reflexivity|discriminate]).
    apply IH. apply hp_m in E3. congruence.
  - destruct n1; [split; [reflexivity|intros s' r X; injection X as <- <-; exact A]|apply IH; exact A].
Qed.
Lemma tail_c cut s : s_mode s = m -> m <> Enlarge ->
  best_tail cd cb cp hpush hpop dyn (Some m) cut s = best_tail cd cb cp hpush hpop dyn None cut s /\
  forall s' e, best_tail cd cb cp hpush hpop dyn None cut s = Ok (s', e) -> s_mode s' = m.
Proof.
  intros M NE. unfold best_tail, tree_best. rewrite (hb_c cut (length (s_heap s)) s M).
  match goal with |- bind ?a _ = _ /\ _ => assert (A : forall s1 d1, a = Ok (s1, d1) -> s_mode s1 = m); [|destruct a as [[s1 d1]| | | | | | |]; try (split; [reflexivity|discriminate])] end.
  { intros s1 d1 X. destruct (s_mode s) eqn:MS; try (destruct (s_dive s); [|discriminate]; apply bind_ok in X; destruct X as ((s2 & e2) & X2 & X); injection X as <- <-; apply hb_m in X2; congruence).
    injection X as <- <-. congruence. }
  specialize (A _ _ eq_refl). cbn [bind]. destruct (negb _); [split; [reflexivity|discriminate]|].
  destruct (loop_c cut (S (length (s_dive s1))) s1 A) as (LE & LM). rewrite LE. destruct (LOO None (S (length (s_dive s1))) cut s1) as [[s2 r]| | | | | | |]; cbn [bind]; try (split; [reflexivity|discriminate]).
  specialize (LM _ _ eq_refl). destruct r as [x|]; [split; [reflexivity|intros s' e X; injection X as <- <-; exact LM]|].
  rewrite (hb_c cut (length (s_heap s2)) s2 LM). split; [reflexivity|]. intros s' e X. apply bind_ok in X. destruct X as ((s3 & e3) & X3 & X). apply hb_m in X3.
  destruct (e_ret e3); [|discriminate]. injection X as <- <-. cbn. congruence.
Qed.
Lemma step_c s o : s_mode s = m -> m <> Enlarge -> no_phase o ->
  STE (Some m) s o = STE None s o /\ forall s' e, STE None s o = Ok (s', e) -> s_mode s' = m.
Proof.
  intros M NE NP. destruct o as [x|c|c|n c|k]; cbn [no_phase] in NP; try contradiction; cbn [step].
  - unfold push. rewrite (hp_c s x M). split; [reflexivity|]. intros s' e X. apply bind_ok in X. destruct X as (s1 & X1 & X). injection X as <- <-.
    destruct (s_mode s) eqn:MS; try (injection X1 as <-; cbn; congruence);
    (apply bind_ok in X1; destruct X1 as (s2 & X2 & X1); apply hp_m in X2; destruct (s_dive s); [|discriminate]; injection X1 as <-; congruence).
  - unfold bestNode. destruct (tail_c c s M NE) as (A & B). destruct (s_mode s) eqn:MS; [congruence| | |]; split; assumption.
  - unfold cleanTree, pushDive. rewrite (pa_c (s_dive s) (with_dive s []) M). destruct (PAL None (s_dive s) (with_dive s [])) as [s1| | | | | | |] eqn:E; cbn [bind]; try (split; [reflexivity|discriminate]).
    apply pa_m in E. cbn in E. assert (M1 : s_mode s1 = m) by congruence. split; [rewrite <- M1; reflexivity|]. intros s' e X.
    apply bind_ok in X. destruct X as ((s2 & d2) & X2 & X). injection X as <- <-. unfold tree_clean in X2. destruct (s_heap s1) as [|? [|? ?]]; try (injection X2 as <- <-; exact M1).
    apply bind_ok in X2. destruct X2 as (? & _ & X2). injection X2 as <- <-. exact M1.
Qed.
Lemma runs_c l : forall s, s_mode s = m -> m <> Enlarge -> Forall no_phase l -> RUN (Some m) s l = RUN None s l.
Proof.
  induction l as [|o t IH]; intros s M NE NP; [reflexivity|]. inversion NP as [|? ? N1 N2]; subst o. cbn [runs]. destruct (step_c s x M NE N1) as (A & B). rewrite A.
  destruct (STE None s x) as [[s1 e]| | | | | | |]; try reflexivity. cbn [bind]. rewrite IH; auto. exact (B _ _ eq_refl).
Qed.
End C.
