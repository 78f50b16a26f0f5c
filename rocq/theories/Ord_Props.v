(** The order in which nodes are explored: properties. *)
From Verif Require Import Base Tree_Model Ord_Model Ord_Spec Ord_Proofs Ord_Proofs2.
Open Scope Z_scope.

Lemma runs_reach cd cb cp hpush hpop hmake H dyn mb md l s tr :
  orders cd -> orders cb -> orders cp -> heap_library hpush hpop hmake H ->
  runs cd cb cp hpush hpop hmake dyn None (srch_init mb md) l = Ok (s, tr) ->
  inv cd cb cp H dyn s /\ s_bfs s = 4.
Proof.
  intros Od Ob Op L X. apply (runs_inv cd cb cp hpush hpop hmake H Od Ob Op L dyn) in X; [|apply (inv_init cd cb cp hpush hpop hmake H L)].
  destruct X as (I & (_ & B & _)). auto.
Qed.

(** ** C258: errors from the comparison *)
Definition root := nd 0 0 0 2.
Definition l258 : list call := [CPush root; CBest 100; CPush (nd 1 1 1 2); CPush (nd 2 2 1 2); CSol 1 50].
Theorem C258_refuted : ~ C258_full true.
Proof.
  intros F. apply (F by_depth by_obj by_depth ins pop1 make1 top_first 5 1000 l258 orders_depth orders_obj orders_depth example_library).
  vm_compute. reflexivity.
Qed.
Print Assumptions C258_refuted.
Theorem C258_partial cd cb cp hpush hpop hmake H dyn mb md l s tr o :
  orders cd -> orders cb -> orders cp -> heap_library hpush hpop hmake H ->
  runs cd cb cp hpush hpop hmake dyn None (srch_init mb md) l = Ok (s, tr) ->
  (step cd cb cp hpush hpop hmake dyn None s o = Thrown <->
   dyn = true /\ s_mode s = Enlarge /\ cleans o = true /\ (2 <= length (held s))%nat).
Proof.
  intros Od Ob Op L X. destruct (runs_reach _ _ _ _ _ _ _ _ _ _ _ _ _ Od Ob Op L X) as (I & _).
  apply (step_thrown cd cb cp hpush hpop hmake H Od Ob Op L dyn). exact I.
Qed.
Print Assumptions C258_partial.
Theorem C258_static : C258_full false.
Proof.
  intros cd cb cp hpush hpop hmake H mb md l Od Ob Op L. apply (static_nt cd cb cp hpush hpop hmake false H Od Ob Op L l eq_refl).
  apply (inv_init cd cb cp hpush hpop hmake H L).
Qed.
Print Assumptions C258_static.
(** The same calls under the other strategy, and the dynamic one with one node only. *)
Example C258_ex :
  (exists p, go false l258 = Ok p) /\ (exists p, go true [CPush root; CBest 100; CPush (nd 1 1 1 2); CSol 1 50] = Ok p).
Proof. split; eexists; vm_compute; reflexivity. Qed.

(** ** C259: dives start at the best node *)
Theorem C259 cd cb cp hpush hpop hmake H dyn mb md l s tr cut s' e :
  orders cd -> orders cb -> orders cp -> heap_library hpush hpop hmake H ->
  runs cd cb cp hpush hpop hmake dyn None (srch_init mb md) l = Ok (s, tr) ->
  (s_mode s = Enlarge \/ s_mode s = FindSolutions) ->
  step cd cb cp hpush hpop hmake dyn None s (CBest cut) = Ok (s', e) ->
  exists x, e_ret e = Some x /\
    (breadth_first s s' x /\ e_drop e = [] \/ dive_goes_on cut s s' x /\ e_drop e = [] \/ dive_starts cd cut s s' x (e_drop e)).
Proof.
  intros Od Ob Op L X M B. destruct (runs_reach _ _ _ _ _ _ _ _ _ _ _ _ _ Od Ob Op L X) as (I & B4). cbn [step] in B.
  apply (best_spec cd cb cp hpush hpop hmake H Od Ob Op L dyn) in B; [|exact I]. destruct B as (R & _). unfold best_result in R.
  destruct M as [M|M]; rewrite M in R.
  - destruct R as [(x & d & A1 & A2 & A3 & A4 & ->)|(A1 & A2 & x & A3 & A4 & A5 & A6 & A7 & A8)]; exists x; (split; [assumption|]).
    + left. split; [|exact A4]. split; [exact M|]. split; [exact M|]. split; [lia|]. exists d. auto.
    + right. right. split; [exact A1|]. split; [exact A4|]. split; [exact A6|]. split; [exact A5|]. split; [exact A7|]. split; [exact A8|]. intros _.
      rewrite B4 in A2. destruct A2 as [A2|(y & d & A2)]; eauto.
  - destruct R as (A1 & x & A2 & [(pre & A3 & A4 & A5 & A6 & A7)|(A3 & A4 & A5 & A6 & A7)]); exists x; (split; [exact A2|]); right.
    + left. split; [|exact A7]. split; [exact M|]. split; [exact A1|]. split; [exact A5|]. split; [exact A4|]. eauto.
    + right. split; [exact A1|]. split; [exact A3|]. split; [exact A5|]. split; [exact A4|]. split; [exact A6|]. split; [exact A7|]. congruence.
Qed.
Print Assumptions C259.
(** At the end of the breadth-first phase the deepest of three nodes starts the dive, which then goes on. *)
Example C259_ex :
  match go true [CPush (nd 1 1 5 2); CPush (nd 2 1 7 2); CPush (nd 3 1 6 2); CBest 100; CPush (nd 4 200 8 2); CPush (nd 5 3 8 2); CPush (nd 6 200 9 2); CBest 100] with
  | Ok (s, tr) => map nid (handed_out tr) = [2; 5]%nat /\ s_mode s = FindSolutions | _ => False end.
Proof. vm_compute. auto. Qed.

(** ** C260: late phases *)
Definition l260 : list call := [CPush root; CBest 100; CSol 5 50; CPush (nd 1 1 1 2); CPush (nd 2 2 1 2); CPush (nd 3 3 1 2)].
Theorem C260_refuted : ~ C260_full.
Proof.
  intros F. destruct (go true l260) as [[s tr]| | | | | | |] eqn:E; try (vm_compute in E; discriminate E).
  destruct (step by_depth by_obj by_depth ins pop1 make1 true None s (CBest 50)) as [[s' e]| | | | | | |] eqn:B;
    vm_compute in E; injection E as <- <-; vm_compute in B; try discriminate B. injection B as <- <-.
  specialize (F by_depth by_obj by_depth ins pop1 make1 top_first 5 1000 l260 _ _ 50%Q _ _ (nd 2 2 1 2) orders_depth orders_obj orders_depth example_library
    ltac:(vm_compute; reflexivity) ltac:(vm_compute; reflexivity) eq_refl).
  destruct F as (F & _). specialize (F eq_refl (nd 1 1 1 2)). vm_compute in F. specialize (F (or_introl eq_refl)). discriminate F.
Qed.
Print Assumptions C260_refuted.
(** The best node is lost; the next best is handed out. *)
Theorem C260_partial cd cb cp hpush hpop hmake H dyn mb md l s tr cut s' e c :
  orders cd -> orders cb -> orders cp -> heap_library hpush hpop hmake H ->
  runs cd cb cp hpush hpop hmake dyn None (srch_init mb md) l = Ok (s, tr) ->
  (s_mode s = CloseBound /\ c = cb \/ s_mode s = LimitTreeSize /\ c = cp) ->
  step cd cb cp hpush hpop hmake dyn None s (CBest cut) = Ok (s', e) ->
  s_mode s' = s_mode s /\ s_dive s = [] /\ s_dive s' = [] /\
  exists lost x, e_ret e = Some x /\ Permutation (held s) (lost :: x :: e_drop e ++ held s') /\
    (nobj lost < cut)%Q /\ (nobj x < cut)%Q /\ Forall (fun y => (cut <= nobj y)%Q) (e_drop e) /\
    none_better c lost (x :: held s') /\ none_better c x (held s').
Proof.
  intros Od Ob Op L X M B. destruct (runs_reach _ _ _ _ _ _ _ _ _ _ _ _ _ Od Ob Op L X) as (I & B4). cbn [step] in B.
  assert (DY : dyn = true).
  { destruct dyn; [reflexivity|]. exfalso.
    assert (Y := phases_static cd cb cp hpush hpop hmake false H Od Ob Op L l eq_refl _ _ _ (inv_init cd cb cp hpush hpop hmake H L false mb md) (or_introl eq_refl) X). intuition congruence. }
  apply (best_spec cd cb cp hpush hpop hmake H Od Ob Op L dyn) in B; [|exact I]. destruct B as (R & _). unfold best_result in R.
  destruct I as (_ & LD). rewrite DY in R.
  destruct M as [(M & ->)|(M & ->)]; rewrite M in R, LD; destruct R as (A1 & c0 & T & lost & x & A2 & A3 & A4 & A5 & A6 & A7 & A8 & A9);
    injection T as <-; (split; [congruence|]); (split; [apply LD; reflexivity|]); (split; [exact A3|]); exists lost, x; auto 10.
Qed.
Print Assumptions C260_partial.
Example C260_ex :
  match go true (l260 ++ [CBest 50]) with
  | Ok (s, tr) => map nid (handed_out tr) = [0; 2]%nat /\ map nid (held s) = [3]%nat /\ s_mode s = CloseBound | _ => False end.
Proof. vm_compute. auto. Qed.

(** ** C261: breadth first *)
Theorem C261 cd cb cp hpush hpop hmake dyn mb md l s tr :
  Forall shallow l -> runs cd cb cp hpush hpop hmake dyn None (srch_init mb md) l = Ok (s, tr) ->
  s_mode s = Enlarge /\ Forall (fun e => e_drop e = []) tr /\
  exists waiting, pushed_by l = handed_out tr ++ waiting /\ Permutation (held s) waiting.
Proof.
  intros SH X. apply fifo in X; [|split; [reflexivity|]; split; [reflexivity|]; split; [reflexivity|constructor]|exact SH].
  destruct X as ((M & HN & _) & E & FD). split; [exact M|]. split; [exact FD|]. exists (rev (s_dive s)). split; [exact E|].
  unfold held. rewrite HN, app_nil_r. apply Permutation_rev.
Qed.
Print Assumptions C261.
Example C261_ex :
  let l := [CPush root; CBest 100; CPush (nd 1 1 1 2); CPush (nd 2 0 1 2); CBest 100; CPush (nd 3 1 2 2); CBest 100; CBest 100] in
  Forall shallow l /\ match go true l with Ok (s, tr) => map nid (handed_out tr) = [0; 1; 2; 3]%nat | _ => False end.
Proof. split; [|vm_compute; reflexivity]. repeat (constructor; [cbn; try lia; exact Logic.I|]). constructor. Qed.

(** ** C262: phases *)
Theorem C262 cd cb cp hpush hpop hmake H mb md l s tr :
  orders cd -> orders cb -> orders cp -> heap_library hpush hpop hmake H ->
  runs cd cb cp hpush hpop hmake true None (srch_init mb md) l = Ok (s, tr) ->
  (s_mode s = LimitTreeSize <-> many_nodes l) /\
  (s_mode s = CloseBound <-> ~ many_nodes l /\ many_solutions l) /\
  (a_solution l -> s_mode s <> Enlarge) /\
  (forall l2 s2 tr2, runs cd cb cp hpush hpop hmake true None s l2 = Ok (s2, tr2) -> (rank (s_mode s) <= rank (s_mode s2))%nat).
Proof.
  intros Od Ob Op L X. destruct (runs_reach _ _ _ _ _ _ _ _ _ _ _ _ _ Od Ob Op L X) as (I & _).
  pose proof (phases cd cb cp hpush hpop hmake true H Od Ob Op L l eq_refl _ _ _ (inv_init cd cb cp hpush hpop hmake H L true mb md) X) as (_ & A & B & C).
  cbn [srch_init s_mode] in A, B. split; [rewrite A; split; [intros [Y|Y]; [discriminate Y|exact Y]|auto]|]. split; [|split; [exact C|]].
  - rewrite B. split; [intros (_ & D & [E|E]); [discriminate E|auto]|intros (D & E); split; [discriminate|auto]].
  - intros l2 s2 tr2 Y. apply (phases cd cb cp hpush hpop hmake true H Od Ob Op L l2 eq_refl) in Y; [|exact I]. tauto.
Qed.
Print Assumptions C262.
Theorem C262_static cd cb cp hpush hpop hmake H mb md l s tr :
  orders cd -> orders cb -> orders cp -> heap_library hpush hpop hmake H ->
  runs cd cb cp hpush hpop hmake false None (srch_init mb md) l = Ok (s, tr) -> s_mode s = Enlarge \/ s_mode s = FindSolutions.
Proof.
  intros Od Ob Op L X. exact (phases_static cd cb cp hpush hpop hmake false H Od Ob Op L l eq_refl _ _ _ (inv_init cd cb cp hpush hpop hmake H L false mb md) (or_introl eq_refl) X).
Qed.
Print Assumptions C262_static.
Example C262_ex :
  match go true [CPush root; CBest 100; CSol 1 50; CPush (nd 1 1 1 2); CSol 5 40] with Ok (s, _) => s_mode s = CloseBound | _ => False end /\
  match go true [CPush root; CBest 100; CSol 1 50; CPush (nd 1 1 1 2); CNodes 1001000] with Ok (s, _) => s_mode s = LimitTreeSize | _ => False end /\
  match go true [CPush root; CBest 100; CSol 1 50; CPush (nd 1 1 1 2); CNodes 1000000] with Ok (s, _) => s_mode s = FindSolutions | _ => False end.
Proof. vm_compute. auto. Qed.

(** ** C263: copies of the tree and of the comparison *)
Definition l263 : list call := [CPush (nd 1 1 5 2); CPush (nd 2 1 7 2); CBest 100].
Theorem C263_refuted : ~ C263_full.
Proof.
  intros F. specialize (F by_depth by_obj by_depth ins pop1 make1 top_first true 5 1000 [] _ _ Enlarge l263 orders_depth orders_obj orders_depth example_library eq_refl (le_n _)).
  vm_compute in F. exact F.
Qed.
Print Assumptions C263_refuted.
Theorem C263_partial cd cb cp hpush hpop hmake dyn s l2 :
  dyn = false \/ s_mode s <> Enlarge /\ Forall no_phase l2 ->
  runs cd cb cp hpush hpop hmake dyn (Some (s_mode s)) (copy_tree s) l2 = runs cd cb cp hpush hpop hmake dyn None s l2.
Proof.
  assert (E : copy_tree s = s) by (destruct s; reflexivity). rewrite E. intros [->|(NE & NP)]; [apply static_copy|apply runs_c; auto].
Qed.
Print Assumptions C263_partial.
Example C263_ex :
  match go true [CPush (nd 1 1 5 2); CBest 100; CPush (nd 2 1 7 2); CPush (nd 3 1 6 2)] with
  | Ok (s, _) => s_mode s = FindSolutions /\
      match runs by_depth by_obj by_depth ins pop1 make1 true (Some (s_mode s)) (copy_tree s) [CBest 100; CClean 50; CBest 50] with Ok (_, tr) => map nid (handed_out tr) = [3; 2]%nat | _ => False end
  | _ => False end.
Proof. vm_compute. auto. Qed.

(** ** C264: assignment of trees *)
Definition l264 : list call := [CPush (nd 1 1 5 2); CBest 100; CPush (nd 2 1 6 2); CBest 100].
Theorem C264_refuted : ~ C264_full.
Proof.
  intros F. specialize (F by_depth by_obj by_depth ins pop1 make1 top_first false (srch_init 5 0) (srch_init 5 1000) l264 orders_depth orders_obj orders_depth example_library).
  vm_compute in F. exact F.
Qed.
Print Assumptions C264_refuted.
Theorem C264_partial l r :
  s_heap (assign_tree l r) = s_heap r /\ s_dive (assign_tree l r) = s_dive r /\ s_mode (assign_tree l r) = s_mode r /\
  (assign_tree l r = r <-> s_depth l = s_depth r).
Proof.
  repeat (split; [reflexivity|]). destruct l, r. cbn. split; [intros X; injection X as X; exact X|]. unfold assign_tree. cbn. intros ->. reflexivity.
Qed.
Print Assumptions C264_partial.
Example C264_ex : assign_tree (srch_init 7 1000) (srch_init 5 1000) = srch_init 5 1000.
Proof. reflexivity. Qed.
