From Verif Require Import Base Tree_Model Tree_Spec.

#[local] Arguments heap_clean : simpl never.
#[local] Arguments heap_best : simpl never.
#[local] Arguments diver_cleanTree : simpl never.
#[local] Arguments probed_cleanTree : simpl never.
#[local] Arguments dfs_cleanTree : simpl never.

Definition node_eq_dec (x y : node) : {x = y} + {x <> y}.
Proof.
  decide equality; try apply Nat.eq_dec; try apply Z.eq_dec.
  - decide equality; [apply Pos.eq_dec | apply Z.eq_dec].
  - decide equality; [apply Pos.eq_dec | apply Z.eq_dec].
Defined.

(** Multiset reasoning: compare occurrence counts. *)
Notation cnt := (count_occ node_eq_dec).
Lemma perm_cnt l1 l2 : (forall x, cnt l1 x = cnt l2 x) -> Permutation l1 l2.
Proof. intros H. apply (Permutation_count_occ node_eq_dec). exact H. Qed.
Lemma cnt_perm l1 l2 : Permutation l1 l2 -> forall x, cnt l1 x = cnt l2 x.
Proof. intros H. apply (Permutation_count_occ node_eq_dec). exact H. Qed.
Lemma cnt_cons a l x : cnt (a :: l) x = cnt [a] x + cnt l x.
Proof. change (a :: l) with ([a] ++ l). apply count_occ_app. Qed.
Lemma cnt_nil x : cnt [] x = 0. Proof. reflexivity. Qed.

(** Turn [Permutation] facts into counting equations and solve.  Distinct
    cons-heads are kept as opaque singletons. *)
Ltac cnt_norm z :=
  repeat match goal with
    | H : Permutation ?a ?b |- _ => apply cnt_perm with (x := z) in H
    end;
  repeat match goal with
    | H : context [cnt (?l1 ++ ?l2) z] |- _ => rewrite (count_occ_app node_eq_dec l1 l2 z) in H
    | H : context [cnt (?a :: ?b :: ?l) z] |- _ => rewrite (cnt_cons a (b :: l) z) in H
    | |- context [cnt (?l1 ++ ?l2) z] => rewrite (count_occ_app node_eq_dec l1 l2 z)
    | |- context [cnt (?a :: ?b :: ?l) z] => rewrite (cnt_cons a (b :: l) z)
    | H : context [cnt (?a :: ?l) z] |- _ =>
        lazymatch l with nil => fail | _ => rewrite (cnt_cons a l z) in H end
    | |- context [cnt (?a :: ?l) z] =>
        lazymatch l with nil => fail | _ => rewrite (cnt_cons a l z) end
    | H : context [cnt [] z] |- _ => rewrite (cnt_nil z) in H
    | |- context [cnt [] z] => rewrite (cnt_nil z)
    end.
Ltac perm :=
  apply perm_cnt; let z := fresh "z" in intros z; cnt_norm z; lia.

(** *** Heap *)
Lemma heap_take_perm sel h x h' : heap_take sel h = Some (x, h') -> Permutation h (x :: h').
Proof. apply take_nth_perm. Qed.
Lemma heap_take_none sel h : heap_take sel h = None -> h = [].
Proof.
  unfold heap_take. destruct h as [|a h]; [reflexivity|]. intros H. exfalso.
  assert (Hlt : (sel (a :: h) mod length (a :: h) < length (a :: h))%nat)
    by (apply Nat.mod_upper_bound; simpl; lia).
  destruct (take_nth_some _ _ Hlt) as (x & r & E).
  rewrite E in H. discriminate.
Qed.

Lemma heap_best_fuel_spec sel c f h r h2 d :
  heap_best_fuel sel f c h = (r, h2, d) ->
  Permutation h (match r with Some x => [x] | None => [] end ++ d ++ h2) /\
  Forall (fun x => (c <= nobj x)%Q) d /\
  match r with Some x => (nobj x < c)%Q | None => True end.
Proof.
  revert h r h2 d. induction f as [|f IH]; intros h r h2 d H; simpl in H.
  - injection H as <- <- <-. simpl. repeat split; auto.
  - destruct (heap_take sel h) as [[x h']|] eqn:E.
    + apply heap_take_perm in E. destruct (Qle_bool c (nobj x)) eqn:Ec.
      * destruct (heap_best_fuel sel f c h') as [[r' h''] d'] eqn:E'.
        injection H as <- <- <-. apply IH in E' as (P & F & R).
        apply Qleb_le in Ec. repeat split; auto. perm.
      * injection H as <- <- <-. apply Qleb_gt in Ec. simpl. repeat split; auto.
    + injection H as <- <- <-. simpl. repeat split; auto.
Qed.
Lemma heap_best_spec sel c h r h2 d :
  heap_best sel c h = (r, h2, d) ->
  Permutation h (match r with Some x => [x] | None => [] end ++ d ++ h2) /\
  Forall (fun x => (c <= nobj x)%Q) d /\
  match r with Some x => (nobj x < c)%Q | None => True end.
Proof. apply heap_best_fuel_spec. Qed.

Lemma heap_best_fuel_none sel c f h h2 d :
  length h <= f -> heap_best_fuel sel f c h = (None, h2, d) -> h2 = [].
Proof.
  revert h h2 d. induction f as [|f IH]; intros h h2 d Hl H; simpl in H.
  - injection H as <- <-. destruct h; [reflexivity|simpl in Hl; lia].
  - destruct (heap_take sel h) as [[x h']|] eqn:E.
    + pose proof (take_nth_length _ _ _ _ E) as L.
      destruct (Qle_bool c (nobj x)) eqn:Ec.
      * destruct (heap_best_fuel sel f c h') as [[r' h''] d'] eqn:E'.
        injection H as -> <- <-. eapply IH; [|exact E']. lia.
      * discriminate.
    + injection H as <- <-. eapply heap_take_none; eassumption.
Qed.
(** A NULL answer of the heap means that it is exhausted. *)
Lemma heap_best_none sel c h h2 d : heap_best sel c h = (None, h2, d) -> h2 = [].
Proof. apply heap_best_fuel_none. lia. Qed.

Lemma filter_split {A} (f : A -> bool) (l : list A) :
  Permutation l (filter f l ++ filter (fun x => negb (f x)) l).
Proof.
  induction l as [|a l IH]; simpl; [reflexivity|].
  destruct (f a); simpl.
  - apply perm_skip. exact IH.
  - rewrite <- Permutation_middle. apply perm_skip. exact IH.
Qed.
Lemma heap_clean_spec c h h' d :
  heap_clean c h = (h', d) ->
  Permutation h (d ++ h') /\ Forall (fun x => (c <= nobj x)%Q) d.
Proof.
  unfold heap_clean. intros H. injection H as <- <-. split.
  - apply filter_split.
  - apply Forall_forall. intros x Hx. apply filter_In in Hx. apply Qleb_le. tauto.
Qed.

Lemma min_obj_spec acc h :
  (min_obj acc h <= acc)%Q /\ (forall x, In x h -> (min_obj acc h <= nobj x)%Q) /\
  (min_obj acc h = acc \/ exists x, In x h /\ min_obj acc h = nobj x).
Proof.
  revert acc; induction h as [|a h IH]; intros acc; simpl.
  - repeat split; [lra|tauto|auto].
  - destruct (Qltb (nobj a) acc) eqn:E.
    + apply Qltb_lt in E. destruct (IH (nobj a)) as (H1 & H2 & H3). repeat split.
      * lra.
      * intros x [<-|Hx]; auto.
      * right. destruct H3 as [H3|(x & Hx & H3)]; eauto.
    + apply Qltb_ge in E. destruct (IH acc) as (H1 & H2 & H3). repeat split.
      * lra.
      * intros x [<-|Hx]; auto. lra.
      * destruct H3 as [H3|(x & Hx & H3)]; eauto.
Qed.

(** *** From one step to all runs *)
Lemma still_open_nil : still_open [] [].
Proof. unfold still_open; simpl. reflexivity. Qed.

Lemma run_app {S} (step : S -> op -> outcome (S * event)) s o1 o2 :
  run step s (o1 ++ o2) =
  do ' (s1, e1) <- run step s o1; do ' (s2, e2) <- run step s1 o2; Ok (s2, e1 ++ e2).
Proof.
  revert s; induction o1 as [|o o1 IH]; intros s; simpl.
  - destruct (run step s o2) as [[s2 e2]| | | | | | |]; reflexivity.
  - destruct (step s o) as [[s1 e]| | | | | | |]; simpl; try reflexivity.
    rewrite IH. destruct (run step s1 o1) as [[s2 es]| | | | | | |]; simpl; try reflexivity.
    destruct (run step s2 o2) as [[s3 e3]| | | | | | |]; reflexivity.
Qed.

Section Conserve.
  Context {S : Type} (step : S -> op -> outcome (S * event)) (contents : S -> list node).
  Definition conserves (s s' : S) (e : event) : Prop :=
    Permutation (contents s ++ pushed [e]) (returned [e] ++ popped [e] ++ dropped [e] ++ contents s').

  Variables (I : S -> Prop) (A : op -> Prop) (G : event -> Prop).
  Hypothesis step_ok : forall s o s' e, I s -> A o -> step s o = Ok (s', e) ->
    conserves s s' e /\ I s' /\ G e.

  Lemma run_conserves ops : forall s s' tr, I s -> Forall A ops -> run step s ops = Ok (s', tr) ->
    Permutation (contents s ++ pushed tr) (returned tr ++ popped tr ++ dropped tr ++ contents s')
    /\ I s' /\ Forall G tr.
  Proof.
    induction ops as [|o ops IH]; intros s s' tr HI HA H; simpl in H.
    - injection H as <- <-. simpl. rewrite app_nil_r. auto.
    - inversion HA as [|? ? Ho Hops]; subst.
      apply bind_ok in H as ([s1 e] & E1 & H). apply bind_ok in H as ([s2 es] & E2 & H).
      injection H as <- <-.
      destruct (step_ok _ _ _ _ HI Ho E1) as (C & HI1 & HG).
      destruct (IH _ _ _ HI1 Hops E2) as (P & HI2 & HGs).
      split; [|auto].
      change (e :: es) with ([e] ++ es). unfold pushed, returned, popped, dropped in *.
      unfold conserves, pushed, returned, popped, dropped in C.
      rewrite !flat_map_app.
      set (a1 := flat_map _ [e]) in *. set (b1 := flat_map _ es) in *.
      set (a2 := flat_map _ [e]) in *. set (b2 := flat_map _ es) in *.
      set (a3 := flat_map _ [e]) in *. set (b3 := flat_map _ es) in *.
      set (a4 := flat_map _ [e]) in *. set (b4 := flat_map _ es) in *.
      clearbody a1 a2 a3 a4 b1 b2 b3 b4.
      perm.
  Qed.
End Conserve.

Lemma true_all (ops : list op) : Forall (fun _ => True) ops.
Proof. apply Forall_forall; auto. Qed.

(** *** CbcDiver *)
Definition opt_list {A} (o : option A) : list A := match o with Some x => [x] | None => [] end.
Definition diver_contents (t : diver) : list node := opt_list (d_next t) ++ d_heap t.

Lemma diver_heap_best_spec sel t c t' r d :
  diver_heap_best sel t c = (t', r, d) ->
  Permutation (diver_contents t) (opt_list r ++ d ++ diver_contents t') /\
  Forall (fun x => (c <= nobj x)%Q) d /\
  match r with Some x => (nobj x < c)%Q | None => True end.
Proof.
  unfold diver_heap_best. destruct (heap_best sel c (d_heap t)) as [[r' h] d'] eqn:E.
  intros H; injection H as <- <- <-. apply heap_best_spec in E as (P & F & R).
  repeat split; auto. unfold diver_contents; simpl.
  fold (@opt_list node r') in P. perm.
Qed.

Lemma diver_best_spec sel t c t' r d :
  diver_best sel t c = (t', r, d) ->
  Permutation (diver_contents t) (opt_list r ++ d ++ diver_contents t') /\
  Forall (fun x => (c <= nobj x)%Q) d /\
  match r with Some x => (nobj x < c)%Q | None => True end.
Proof.
  unfold diver_best. destruct t as [h cl nx st]; simpl.
  destruct nx as [x|]; [destruct cl|]; try (intros H; apply diver_heap_best_spec in H; exact H).
  destruct (Qltb (nobj x) c) eqn:E.
  - destruct (st && Qle_bool c (nguess x)).
    + intros H; apply diver_heap_best_spec in H. unfold diver_contents in *; simpl in *. exact H.
    + intros H; injection H as <- <- <-. apply Qltb_lt in E.
      unfold diver_contents; simpl. auto.
  - intros H; apply diver_heap_best_spec in H. unfold diver_contents in *; simpl in *. exact H.
Qed.

Definition good_event (e : event) : Prop := drop_justified e /\ return_below e.

Lemma diver_step_ok sel : forall t o t' e, True -> True ->
  diver_step sel t o = Ok (t', e) ->
  conserves diver_contents t t' e /\ True /\ good_event e.
Proof.
  intros t o t' e _ _ H. unfold conserves, good_event.
  destruct o as [x| | |c|c|m]; cbn [diver_step] in H.
  - apply bind_ok in H as (t1 & H & E). injection E as <- <-. simpl.
    split; [|repeat split; auto].
    destruct t as [h cl nx st]. unfold diver_push in H; simpl in H.
    destruct cl; [injection H as <-; unfold diver_contents; simpl; perm|].
    destruct (fresh x).
    + destruct nx; [discriminate|]. injection H as <-. unfold diver_contents; simpl. perm.
    + injection H as <-; unfold diver_contents; simpl; perm.
  - apply bind_ok in H as ([t1 x] & H & E). injection E as <- <-. simpl.
    split; [|repeat split; auto].
    destruct t as [h cl nx st]. unfold diver_pop in H; simpl in H.
    assert (K : forall hh, heap_take sel h = Some hh ->
                Permutation ((opt_list nx ++ h) ++ []) (fst hh :: opt_list nx ++ snd hh)).
    { intros [y h'] E'. apply heap_take_perm in E'. simpl. perm. }
    destruct nx as [y|]; [destruct cl|].
    + destruct (heap_take sel h) as [[z h']|]; [|discriminate].
      injection H as <- <-. apply (K _ eq_refl).
    + injection H as <- <-. unfold diver_contents; simpl. perm.
    + destruct (heap_take sel h) as [[z h']|]; [|discriminate].
      injection H as <- <-. apply (K _ eq_refl).
  - apply bind_ok in H as (x & H & E). injection E as <- <-. simpl.
    split; [|repeat split; auto]. rewrite app_nil_r. reflexivity.
  - destruct (diver_best sel t c) as [[t1 r] d] eqn:E. injection H as <- <-.
    apply diver_best_spec in E as (P & F & R). simpl.
    split; [|repeat split; auto]. unfold opt_list in P at 1. destruct r; simpl in *; rewrite ?app_nil_r in *; exact P.
  - unfold diver_cleanTree in H. cbv zeta in H.
    set (hh := match d_next t with Some x => x :: d_heap t | None => d_heap t end) in H.
    destruct (heap_clean c hh) as [h' d] eqn:E. injection H as <- <-.
    apply heap_clean_spec in E as (P & F). simpl.
    split; [|repeat split; auto]. unfold diver_contents; simpl. subst hh.
    destruct (d_next t); simpl; rewrite ?app_nil_r; exact P.
  - injection H as <- <-. simpl. split; [|repeat split; auto]. rewrite app_nil_r. reflexivity.
Qed.

Lemma diver_size_contents t : diver_size t = length (diver_contents t).
Proof.
  unfold diver_size, diver_contents. rewrite app_length. destruct (d_next t); simpl; lia.
Qed.
Lemma diver_empty_contents t : diver_empty t = true <-> diver_contents t = [].
Proof.
  unfold diver_empty, diver_contents. destruct (d_heap t), (d_next t); simpl; split; congruence.
Qed.

Lemma Forall_split_good tr : Forall good_event tr -> Forall drop_justified tr /\ Forall return_below tr.
Proof. intros H; split; eapply Forall_impl; try exact H; intros e [? ?]; auto. Qed.

Lemma diver_conservation sel stop ops t tr :
  run (diver_step sel) (diver_init stop) ops = Ok (t, tr) ->
  exists rest, still_open tr rest /\ diver_size t = length rest /\
    (diver_empty t = true <-> rest = []) /\
    Forall drop_justified tr /\ Forall return_below tr.
Proof.
  intros H.
  destruct (run_conserves (diver_step sel) diver_contents (fun _ => True) (fun _ => True)
              good_event (diver_step_ok sel) ops _ _ _ I (true_all _) H) as (P & _ & G).
  apply Forall_split_good in G as (G1 & G2).
  exists (diver_contents t). split; [exact P|]. split; [apply diver_size_contents|].
  split; [apply diver_empty_contents|]. auto.
Qed.

Lemma diver_bound_correct sel stop ops t tr :
  run (diver_step sel) (diver_init stop) ops = Ok (t, tr) ->
  exists rest, still_open tr rest /\ bound_correct big rest (diver_bound t).
Proof.
  intros H.
  destruct (run_conserves (diver_step sel) diver_contents (fun _ => True) (fun _ => True)
              good_event (diver_step_ok sel) ops _ _ _ I (true_all _) H) as (P & _ & _).
  exists (diver_contents t). split; [exact P|].
  unfold diver_bound, diver_contents.
  set (acc := match d_next t with Some x => nobj x | None => big end).
  destruct (min_obj_spec acc (d_heap t)) as (H1 & H2 & H3). split.
  - intros x Hx. apply in_app_or in Hx as [Hx|Hx]; auto.
    destruct (d_next t) as [y|]; simpl in Hx; [|tauto]. destruct Hx as [<-|[]]. exact H1.
  - destruct H3 as [H3|(x & Hx & H3)].
    + destruct (d_next t) as [y|]; subst acc.
      * right. exists y. simpl. split; [auto|]. rewrite H3. reflexivity.
      * left. rewrite H3. reflexivity.
    + right. exists x. split; [apply in_or_app; auto|]. rewrite H3. reflexivity.
Qed.

Lemma diver_pop_is_top sel t t' x :
  diver_pop sel t = Ok (t', x) -> diver_top sel t = Ok x.
Proof.
  unfold diver_pop, diver_top. destruct (d_next t); [destruct (d_clean t)|];
  try (destruct (heap_take sel (d_heap t)) as [[y h]|]; intros H; [injection H as <- <-|discriminate]; reflexivity).
  intros H; injection H as <- <-. reflexivity.
Qed.

(** *** CbcProbedDiver *)
Definition probed_contents (t : probed) : list node :=
  opt_list (p_next t) ++ opt_list (p_cand t) ++ p_heap t.

Lemma probed_heap_best_spec sel t c t' r d :
  probed_heap_best sel t c = (t', r, d) ->
  Permutation (probed_contents t) (opt_list r ++ d ++ probed_contents t') /\
  Forall (fun x => (c <= nobj x)%Q) d /\
  match r with Some x => (nobj x < c)%Q | None => True end /\
  p_clean t' = p_clean t /\ p_next t' = p_next t /\ p_cand t' = p_cand t /\ p_stop t' = p_stop t.
Proof.
  unfold probed_heap_best. destruct (heap_best sel c (p_heap t)) as [[r' h] d'] eqn:E.
  intros H; injection H as <- <- <-. apply heap_best_spec in E as (P & F & R).
  repeat split; auto. unfold probed_contents; simpl.
  fold (@opt_list node r') in P. perm.
Qed.

(** Invariant linking the slots with the protocol state. *)
Definition probed_inv (t : probed) (st : proto_st) : Prop :=
  let '(live, canBack, canNew) := st in
  p_clean t = false /\
  (forall x, p_next t = Some x -> In x live) /\ (forall x, p_cand t = Some x -> In x live) /\
  match p_next t, p_cand t with
  | None, None => True
  | None, Some _ => canBack = false
  | Some n, None => if fresh n then canNew = false else canBack = false
  | Some n, Some _ => fresh n = false /\ canNew = false /\ canBack = false
  end.

Ltac pslots :=
  simpl; repeat split; auto; try discriminate;
  try (let y := fresh "y" in let Hy := fresh "Hy" in intros y Hy; injection Hy as <-; auto).

Lemma probed_step_ok sel cmp t o t' e st st' :
  probed_inv t st -> probed_step sel cmp t o = Ok (t', e) -> proto_step st e = Some st' ->
  conserves probed_contents t t' e /\ probed_inv t' st' /\ good_event e /\ p_stop t' = p_stop t.
Proof.
  intros HI H HP. destruct st as [[live canBack] canNew].
  destruct t as [h cl nx cd sf]. unfold probed_inv in HI; simpl in HI.
  destruct HI as (-> & Hn & Hc & HS).
  destruct o as [x| | |c|c|m]; cbn [probed_step] in H.
  - (* push *)
    apply bind_ok in H as (t1 & H & E). injection E as <- <-. unfold conserves; simpl.
    simpl in HP. unfold probed_push in H; simpl in H.
    destruct (fresh x) eqn:Fx.
    + destruct canNew; [|discriminate]. injection HP as <-.
      destruct nx as [n|], cd as [k|].
      * destruct HS as (_ & ? & _). discriminate.
      * injection H as <-. split; [unfold probed_contents; simpl; perm|].
        split; [|repeat split; auto].
        destruct (fresh n) eqn:Fn; [discriminate|]. pslots.
      * destruct (cmp x k); injection H as <-;
        (split; [unfold probed_contents; simpl; perm|]);
        (split; [|repeat split; auto]); pslots.
        -- destruct (fresh k); auto.
        -- rewrite Fx; auto.
      * injection H as <-. split; [unfold probed_contents; simpl; perm|].
        split; [|repeat split; auto]. pslots. rewrite Fx; auto.
    + destruct canBack; [|discriminate]. injection HP as <-.
      destruct nx as [n|].
      * destruct cd as [k|]; [discriminate|]. injection H as <-.
        split; [unfold probed_contents; simpl; perm|].
        split; [|repeat split; auto]. pslots.
        destruct (fresh n); [auto|discriminate].
      * injection H as <-. destruct cd as [k|]; [discriminate|].
        split; [unfold probed_contents; simpl; perm|].
        split; [|repeat split; auto]. pslots. rewrite Fx; auto.
  - (* pop *)
    apply bind_ok in H as ([t1 x] & H & E). injection E as <- <-. simpl in HP. injection HP as <-.
    unfold probed_pop in H; simpl in H. unfold conserves; simpl.
    destruct nx as [n|].
    + injection H as <- <-. split; [unfold probed_contents; simpl; perm|].
      split; [|repeat split; auto]. pslots. destruct cd; auto. tauto.
    + destruct cd as [k|].
      * injection H as <- <-. split; [unfold probed_contents; simpl; perm|].
        split; [|repeat split; auto]. pslots.
      * destruct (heap_take sel h) as [[y h']|] eqn:EH; [|discriminate]. injection H as <- <-.
        apply heap_take_perm in EH. split; [unfold probed_contents; simpl; perm|].
        split; [|repeat split; auto]. pslots.
  - apply bind_ok in H as (x & H & E). injection E as <- <-. simpl in HP. injection HP as <-.
    unfold conserves; simpl. split; [rewrite app_nil_r; reflexivity|].
    split; [|repeat split; auto]. simpl. auto.
  - (* bestNode *)
    apply bind_ok in H as ([[t1 r] d] & H & E). injection E as <- <-. simpl in HP.
    destruct (forallb (fun x : node => Qltb (nobj x) c) live) eqn:FA; [|discriminate].
    rewrite forallb_forall in FA.
    unfold probed_best in H; simpl in H. unfold conserves; simpl.
    destruct nx as [n|].
    + pose proof (FA _ (Hn _ eq_refl)) as Ln. rewrite Ln in H.
      destruct (sf && Qle_bool c (nguess n)) eqn:SF.
      * destruct cd as [k|]; [|discriminate]. injection H as H.
        apply probed_heap_best_spec in H as (P & F & R & E1 & E2 & E3 & E4).
        unfold probed_contents in P; simpl in *.
        split. { unfold probed_contents; simpl. unfold opt_list at 1 in P.
                 destruct r; simpl in *; perm. }
        split; [|split; [split; simpl; auto | auto]].
        destruct r; injection HP as <-; simpl; rewrite E1, E2, E3; repeat split; auto; discriminate.
      * injection H as <- <- <-. injection HP as <-. simpl.
        split; [unfold probed_contents; simpl; perm|].
        split; [|split; [split; simpl; [auto|apply Qltb_lt; auto]|auto]].
        repeat split; auto; try discriminate.
        destruct cd; auto. tauto.
    + destruct cd as [k|].
      * pose proof (FA _ (Hc _ eq_refl)) as Lk. rewrite Lk in H.
        destruct (sf && Qle_bool c (nguess k)) eqn:SF.
        -- injection H as H.
           apply probed_heap_best_spec in H as (P & F & R & E1 & E2 & E3 & E4).
           unfold probed_contents in P; simpl in *.
           split. { unfold probed_contents; simpl. unfold opt_list at 1 in P.
                    destruct r; simpl in *; perm. }
           split; [|split; [split; simpl; auto | auto]].
           destruct r; injection HP as <-; simpl; rewrite E1, E2, E3; repeat split; auto; discriminate.
        -- injection H as <- <- <-. injection HP as <-. simpl.
           split; [unfold probed_contents; simpl; perm|].
           split; [|split; [split; simpl; [auto|apply Qltb_lt; auto]|auto]].
           repeat split; auto; try discriminate.
      * injection H as H.
        apply probed_heap_best_spec in H as (P & F & R & E1 & E2 & E3 & E4).
        unfold probed_contents in P; simpl in *.
        split. { unfold probed_contents; simpl. unfold opt_list at 1 in P.
                 destruct r; simpl in *; perm. }
        split; [|split; [split; simpl; auto | auto]].
        destruct r; injection HP as <-; simpl; rewrite E1, E2, E3; repeat split; auto; discriminate.
  - (* cleanTree *)
    unfold probed_cleanTree in H; cbv zeta in H; cbn [p_next p_cand p_heap p_stop] in H.
    set (hh := match cd with Some x => _ | None => _ end) in H.
    destruct (heap_clean c hh) as [h' d] eqn:E. injection H as <- <-. simpl in HP. injection HP as <-.
    apply heap_clean_spec in E as (P & F). unfold conserves; simpl.
    split. { unfold probed_contents; simpl. subst hh. destruct nx, cd; simpl in *; perm. }
    split; [|split; [split; simpl; auto|auto]].
    simpl. repeat split; auto; discriminate.
  - injection H as <- <-. simpl in HP. injection HP as <-. unfold conserves; simpl.
    split; [rewrite app_nil_r; reflexivity|].
    split; [|repeat split; auto]. simpl. auto.
Qed.

Lemma probed_run sel cmp ops : forall t st t' tr st',
  probed_inv t st -> run (probed_step sel cmp) t ops = Ok (t', tr) ->
  proto_run st tr = Some st' ->
  Permutation (probed_contents t ++ pushed tr)
     (returned tr ++ popped tr ++ dropped tr ++ probed_contents t') /\
  probed_inv t' st' /\ Forall good_event tr /\ p_stop t' = p_stop t.
Proof.
  induction ops as [|o ops IH]; intros t st t' tr st' HI H HP; simpl in H.
  - injection H as <- <-. simpl in *. injection HP as <-. rewrite app_nil_r. auto.
  - apply bind_ok in H as ([s1 e] & E1 & H). apply bind_ok in H as ([s2 es] & E2 & H).
    injection H as <- <-. simpl in HP.
    destruct (proto_step st e) as [st1|] eqn:EP; [|discriminate].
    destruct (probed_step_ok _ _ _ _ _ _ _ _ HI E1 EP) as (C & HI1 & HG & HS).
    destruct (IH _ _ _ _ _ HI1 E2 HP) as (P & HI2 & HGs & HS2).
    split; [|split; [auto|split; [auto|congruence]]].
    change (e :: es) with ([e] ++ es). unfold pushed, returned, popped, dropped in *.
    unfold conserves, pushed, returned, popped, dropped in C.
    rewrite !flat_map_app.
    set (a1 := flat_map _ [e]) in *. set (b1 := flat_map _ es) in *.
    set (a2 := flat_map _ [e]) in *. set (b2 := flat_map _ es) in *.
    set (a3 := flat_map _ [e]) in *. set (b3 := flat_map _ es) in *.
    set (a4 := flat_map _ [e]) in *. set (b4 := flat_map _ es) in *.
    clearbody a1 a2 a3 a4 b1 b2 b3 b4.
    perm.
Qed.

Lemma probed_init_inv stop : probed_inv (probed_init stop) proto_init.
Proof. simpl. repeat split; auto; discriminate. Qed.

Lemma probed_size_contents t : probed_size t = length (probed_contents t).
Proof.
  unfold probed_size, probed_contents. rewrite !app_length.
  destruct (p_next t), (p_cand t); simpl; lia.
Qed.
Lemma probed_empty_contents t : probed_empty t = true <-> probed_contents t = [].
Proof.
  unfold probed_empty, probed_contents.
  destruct (p_heap t), (p_next t), (p_cand t); simpl; split; congruence.
Qed.

Lemma probed_conservation sel cmp stop ops t tr :
  run (probed_step sel cmp) (probed_init stop) ops = Ok (t, tr) ->
  two_way_protocol tr ->
  exists rest, still_open tr rest /\ probed_size t = length rest /\
    (probed_empty t = true <-> rest = []) /\
    Forall drop_justified tr /\ Forall return_below tr.
Proof.
  intros H HP. unfold two_way_protocol in HP.
  destruct (proto_run proto_init tr) as [st'|] eqn:E; [|congruence].
  destruct (probed_run _ _ _ _ _ _ _ _ (probed_init_inv stop) H E) as (P & _ & G & _).
  apply Forall_split_good in G as (G1 & G2).
  exists (probed_contents t). split; [exact P|]. split; [apply probed_size_contents|].
  split; [apply probed_empty_contents|]. auto.
Qed.

Lemma probed_no_crash sel cmp ops t tr o :
  run (probed_step sel cmp) (probed_init false) ops = Ok (t, tr) ->
  proto_allows tr o ->
  exists t' e, probed_step sel cmp t o = Ok (t', e).
Proof.
  intros H (st & EP & HA).
  destruct (probed_run _ _ _ _ _ _ _ _ (probed_init_inv false) H EP) as (P & HI & _ & HS).
  assert (NE : ~ still_open tr [] -> probed_contents t <> []).
  { intros N E. apply N. unfold still_open. rewrite E in P. exact P. }
  clear P. simpl in HS. destruct st as [[live canBack] canNew]. destruct t as [h cl nx cd sf].
  unfold probed_inv in HI; simpl in *. subst sf. destruct HI as (-> & Hn & Hc & HI).
  destruct o as [x| | |c|c|m]; cbn [probed_step]; try tauto.
  - unfold probed_push; simpl. destruct (fresh x) eqn:Fx.
    + destruct nx, cd; simpl; eauto; destruct (cmp x _); simpl; eauto.
    + destruct nx as [n|]; simpl; eauto. destruct cd; simpl; eauto.
      destruct HI as (_ & _ & ?). congruence.
  - unfold probed_pop; simpl. specialize (NE HA). destruct nx as [n|]; simpl; eauto.
    destruct cd as [k|]; simpl; eauto.
    destruct (heap_take sel h) as [[y h']|] eqn:EH; simpl; eauto.
    apply heap_take_none in EH. subst h. destruct NE. reflexivity.
  - unfold probed_top; simpl. specialize (NE HA). destruct nx as [n|]; simpl; eauto.
    destruct cd as [k|]; simpl; eauto.
    destruct (heap_take sel h) as [[y h']|] eqn:EH; simpl; eauto.
    apply heap_take_none in EH. subst h. destruct NE. reflexivity.
  - unfold probed_best; simpl. destruct nx as [n|].
    + assert (nobj n < c)%Q as L by (apply HA; auto). apply Qltb_lt in L. rewrite L. simpl. eauto.
    + destruct cd as [k|]; simpl.
      * assert (nobj k < c)%Q as L by (apply HA; auto). apply Qltb_lt in L. rewrite L. simpl. eauto.
      * destruct (probed_heap_best sel _ c) as [[? ?] ?]. eauto.
  - destruct (probed_cleanTree _ c). eauto.
  - eauto.
Qed.

Lemma probed_bound_contents t : bound_correct big (probed_contents t) (probed_bound t).
Proof.
  unfold probed_bound, probed_contents.
  set (a0 := match p_next t with Some x => nobj x | None => big end).
  set (acc := match p_cand t with Some y => if Qltb (nobj y) a0 then nobj y else a0 | None => a0 end).
  destruct (min_obj_spec acc (p_heap t)) as (H1 & H2 & H3).
  assert (Ha0 : forall x, p_next t = Some x -> a0 = nobj x)
    by (intros x Hx; unfold a0; rewrite Hx; reflexivity).
  assert (Hacc : (acc <= a0)%Q).
  { unfold acc. destruct (p_cand t) as [y|]; [|lra].
    destruct (Qltb (nobj y) a0) eqn:E; [apply Qltb_lt in E; lra|lra]. }
  assert (Hacc2 : forall y, p_cand t = Some y -> (acc <= nobj y)%Q).
  { intros y Hy. unfold acc. rewrite Hy.
    destruct (Qltb (nobj y) a0) eqn:E; [lra|apply Qltb_ge in E; lra]. }
  split.
  - intros x Hx. apply in_app_or in Hx as [Hx|Hx]; [|apply in_app_or in Hx as [Hx|Hx]].
    + destruct (p_next t) as [y|]; simpl in Hx; [|tauto]. destruct Hx as [<-|[]].
      rewrite <- (Ha0 _ eq_refl). lra.
    + destruct (p_cand t) as [y|]; simpl in Hx; [|tauto]. destruct Hx as [<-|[]].
      specialize (Hacc2 _ eq_refl). lra.
    + auto.
  - destruct H3 as [H3|(x & Hx & H3)].
    + rewrite H3. unfold acc. clear - a0.
      assert (K : (a0 == big)%Q \/ exists x, In x (opt_list (p_next t) ++ opt_list (p_cand t) ++ p_heap t) /\ (a0 == nobj x)%Q).
      { unfold a0. destruct (p_next t) as [n|]; [right; exists n; simpl; split; [auto|reflexivity]|left; reflexivity]. }
      destruct (p_cand t) as [y|]; [|exact K].
      destruct (Qltb (nobj y) a0); [|exact K].
      right. exists y. split; [|reflexivity]. destruct (p_next t); simpl; auto.
    + right. exists x. split; [rewrite !in_app_iff; auto|]. rewrite H3. reflexivity.
Qed.

Lemma probed_bound_correct sel cmp stop ops t tr :
  run (probed_step sel cmp) (probed_init stop) ops = Ok (t, tr) ->
  two_way_protocol tr ->
  exists rest, still_open tr rest /\ bound_correct big rest (probed_bound t).
Proof.
  intros H HP. unfold two_way_protocol in HP.
  destruct (proto_run proto_init tr) as [st'|] eqn:E; [|congruence].
  destruct (probed_run _ _ _ _ _ _ _ _ (probed_init_inv stop) H E) as (P & _ & G & _).
  exists (probed_contents t). split; [exact P|]. apply probed_bound_contents.
Qed.

Lemma probed_pop_is_top sel t t' x :
  probed_pop sel t = Ok (t', x) -> probed_top sel t = Ok x.
Proof.
  unfold probed_pop, probed_top. destruct (p_clean t), (p_next t), (p_cand t);
  try (destruct (heap_take sel (p_heap t)) as [[y h]|]; intros H; [injection H as <- <-|discriminate]; reflexivity);
  intros H; injection H as <- <-; reflexivity.
Qed.

(** *** CbcDfsDiver *)
Definition dfs_contents (t : dfs) : list node := f_dive t ++ f_heap t.
Definition dfs_inv (t : dfs) : Prop :=
  f_clean t = false /\ f_size t = Z.of_nat (length (f_dive t)).

Lemma rev_append_perm (a b : list node) : Permutation (rev_append a b) (a ++ b).
Proof. rewrite rev_append_rev. rewrite <- Permutation_rev. reflexivity. Qed.

Lemma dfs_pushDive_spec t :
  dfs_inv t ->
  Permutation (dfs_contents t) (dfs_contents (dfs_pushDive t)) /\ dfs_inv (dfs_pushDive t) /\
  f_dive (dfs_pushDive t) = [] /\ f_mode (dfs_pushDive t) = f_mode t.
Proof.
  intros (Hc & Hs). unfold dfs_pushDive, dfs_contents, dfs_inv; simpl.
  pose proof (rev_append_perm (f_dive t) (f_heap t)) as P.
  repeat split; auto.
  - symmetry. exact P.
  - lia.
Qed.

Lemma dfs_setMode_spec t m :
  dfs_inv t ->
  Permutation (dfs_contents t) (dfs_contents (dfs_setMode t m)) /\ dfs_inv (dfs_setMode t m) /\
  f_mode (dfs_setMode t m) = m.
Proof.
  intros HI. unfold dfs_setMode.
  destruct (mode_eqb m (f_mode t)) eqn:E.
  - repeat split; auto; try (destruct HI; auto). destruct m, (f_mode t); simpl in E; congruence.
  - assert (HI' : dfs_inv (with_mode t m)) by (destruct HI; split; auto).
    destruct (dfs_pushDive_spec _ HI') as (P & HI2 & D & M).
    repeat split; try (destruct HI2; auto; fail); try exact P.
Qed.

Lemma dfs_heap_best_spec sel t c t' r d :
  dfs_heap_best sel t c = (t', r, d) ->
  Permutation (dfs_contents t) (opt_list r ++ d ++ dfs_contents t') /\
  Forall (fun x => (c <= nobj x)%Q) d /\
  (dfs_inv t -> dfs_inv t') /\ f_dive t' = f_dive t /\ f_mode t' = f_mode t /\
  f_nback t' = f_nback t /\ f_maxback t' = f_maxback t /\ f_size t' = f_size t.
Proof.
  unfold dfs_heap_best. destruct (heap_best sel c (f_heap t)) as [[r' h] d'] eqn:E.
  intros H; injection H as <- <- <-. apply heap_best_spec in E as (P & F & R).
  repeat split; auto; try (destruct H; auto; fail). unfold dfs_contents; simpl.
  fold (@opt_list node r') in P. perm.
Qed.

Lemma dfs_loop_spec fuel : forall t c t' r,
  dfs_inv t -> dfs_loop fuel t c = Ok (t', r) ->
  Permutation (dfs_contents t) (opt_list r ++ dfs_contents t') /\ dfs_inv t' /\ f_mode t' = f_mode t.
Proof.
  induction fuel as [|fl IH]; intros t c t' r HI H; simpl in H.
  - destruct (Z.leb (f_size t) 0); [|discriminate]. injection H as <- <-. simpl. auto.
  - destruct (Z.leb (f_size t) 0). { injection H as <- <-. simpl. auto. }
    destruct t as [h cl dv sz bd nb mb mk md mo]; simpl in H.
    destruct HI as (Hc & Hs); simpl in Hc, Hs. subst cl.
    destruct dv as [|x dv]; [discriminate|].
    destruct (Z.leb (ndepth x - bd) md); simpl in H; [|discriminate].
    simpl in Hs.
    set (A := if Qltb c (nobj x) then _ else _) in H.
    assert (HA : Permutation (dfs_contents (mkDfs h false (x :: dv) sz bd nb mb mk md mo))
                   (opt_list (snd A) ++ dfs_contents (fst A)) /\ dfs_inv (fst A) /\ f_mode (fst A) = mo).
    { subst A. destruct (Qltb c (nobj x)); [|destruct (Nat.ltb (nleft x) (nbr x))]; simpl;
      unfold dfs_contents, dfs_inv; simpl; (split; [perm|split; [split; auto; lia|auto]]). }
    destruct A as [t2 nd]; simpl in HA. destruct HA as (P2 & HI2 & M2).
    destruct (Z.leb (f_maxback t2) (f_nback t2)).
    + destruct (dfs_pushDive_spec _ HI2) as (P3 & HI3 & D3 & M3).
      set (t3 := dfs_pushDive t2) in *.
      destruct nd as [y|].
      * apply IH in H.
        -- destruct H as (P & I' & M'). simpl in M'. split; [|split; [auto|simpl in *; congruence]].
           unfold dfs_contents in *; simpl in *. perm.
        -- destruct HI3; split; auto.
      * apply IH in H; [|auto].
        destruct H as (P & I' & M'). split; [|split; [auto|simpl in *; congruence]].
        unfold dfs_contents in *; simpl in *. perm.
    + destruct nd as [y|].
      * injection H as <- <-. auto.
      * apply IH in H; [|auto].
        destruct H as (P & I' & M'). split; [|split; [auto|simpl in *; congruence]].
        unfold dfs_contents in *; simpl in *. perm.
Qed.

Lemma dfs_best_tail_spec sel t c t' r d :
  dfs_inv t -> f_mode t = FindSolutions -> dfs_best_tail sel t c = Ok (t', r, d) ->
  Permutation (dfs_contents t) (opt_list r ++ d ++ dfs_contents t') /\ dfs_inv t' /\
  Forall (fun x => (c <= nobj x)%Q) d /\ f_mode t' = FindSolutions.
Proof.
  intros HI HM H. unfold dfs_best_tail in H. rewrite HM in H. cbn [bind] in H.
  destruct (Z.ltb (f_nback t) (f_maxback t)); cbn [negb] in H; [|discriminate].
  apply bind_ok in H as ([t2 r2] & EL & H).
  apply dfs_loop_spec in EL as (P & HI2 & M2); [|auto].
  destruct r2 as [x|].
  - injection H as <- <- <-. simpl in *. repeat split; auto; try (destruct HI2; auto; fail). congruence.
  - destruct (f_dive t2) eqn:D; [|discriminate]. destruct (Z.eqb (f_size t2) 0); [|discriminate].
    destruct (dfs_heap_best sel t2 c) as [[t3 r3] d3] eqn:E.
    apply dfs_heap_best_spec in E as (P3 & F3 & I3 & D3 & M3 & _).
    destruct r3 as [x|]; [|discriminate]. injection H as <- <- <-.
    specialize (I3 HI2). simpl in *. unfold dfs_contents in *; simpl.
    split; [perm|]. split; [destruct I3; split; auto|]. split; [auto|congruence].
Qed.

Lemma dfs_step_ok sel : forall t o t' e,
  dfs_inv t /\ mode_late (f_mode t) = false -> early_op o ->
  dfs_step sel t o = Ok (t', e) ->
  conserves dfs_contents t t' e /\ (dfs_inv t' /\ mode_late (f_mode t') = false) /\ drop_justified e.
Proof.
  intros t o t' e (HI & HM) HA H. unfold conserves.
  destruct o as [x| | |c|c|m]; cbn [dfs_step] in H.
  - apply bind_ok in H as (t1 & H & E). injection E as <- <-. simpl.
    destruct t as [h cl dv sz bd nb mb mk md mo]. destruct HI as (Hc & Hs); simpl in *. subst cl.
    unfold dfs_push in H; simpl in H. rewrite HM in H. injection H as <-.
    unfold dfs_contents, dfs_inv; simpl. split; [perm|]. split; [|auto]. split; [|auto].
    split; auto. lia.
  - apply bind_ok in H as ([t1 x] & H & E). injection E as <- <-. simpl.
    destruct t as [h cl dv sz bd nb mb mk md mo]. destruct HI as (Hc & Hs); simpl in *. subst cl.
    unfold dfs_pop in H; simpl in H. destruct dv as [|y dv].
    + destruct (heap_take sel h) as [[y h']|] eqn:E; [|discriminate]. injection H as <- <-.
      apply heap_take_perm in E. unfold dfs_contents, dfs_inv; simpl.
      split; [perm|]. auto.
    + rewrite HM in H. injection H as <- <-. simpl in Hs. unfold dfs_contents, dfs_inv; simpl.
      split; [perm|]. split; [|auto]. split; [|auto]. split; auto. lia.
  - apply bind_ok in H as (x & H & E). injection E as <- <-. simpl.
    split; [rewrite app_nil_r; reflexivity|]. auto.
  - apply bind_ok in H as ([[t1 r] d] & H & E). injection E as <- <-.
    assert (K : Permutation (dfs_contents t) (opt_list r ++ d ++ dfs_contents t1) /\ dfs_inv t1 /\
                Forall (fun x => (c <= nobj x)%Q) d /\ mode_late (f_mode t1) = false).
    { unfold dfs_best in H. destruct HI as (Hc & Hs). rewrite Hc in H.
      destruct (f_mode t) eqn:M; try discriminate HM.
      - destruct (Z.eqb (f_size t) 0).
        + apply dfs_best_tail_spec in H as (P & I1 & F & M1); [|split; auto|auto].
          rewrite M1. auto.
        + destruct (rev (f_dive t)) as [|x rdv] eqn:R; [discriminate|].
          assert (D : f_dive t = rev rdv ++ [x])
            by (rewrite <- (rev_involutive (f_dive t)), R; reflexivity).
          destruct (Z.ltb (f_maxbfs t) (ndepth x)).
          * destruct (dfs_setMode_spec t FindSolutions (conj Hc Hs)) as (P1 & I1 & M1).
            apply dfs_best_tail_spec in H as (P & I2 & F & M2); [|auto|auto].
            rewrite M2. split; [perm|auto].
          * injection H as <- <- <-. unfold dfs_contents, dfs_inv; simpl. rewrite D.
            split; [perm|]. rewrite D, app_length in Hs. simpl in Hs.
            split; [split; auto; lia|]. try rewrite M; auto.
      - apply dfs_best_tail_spec in H as (P & I1 & F & M1); [|split; auto|auto].
        rewrite M1. auto. }
    destruct K as (P & I1 & F & M1). simpl. split; [|auto].
    unfold opt_list at 1 in P. destruct r; simpl in *; rewrite ?app_nil_r in *; exact P.
  - unfold dfs_cleanTree in H. cbv zeta in H. destruct (dfs_pushDive_spec _ HI) as (P & I1 & D & M).
    set (t1 := dfs_pushDive t) in *.
    destruct (heap_clean c (f_heap t1)) as [h' d] eqn:E. injection H as <- <-. simpl.
    apply heap_clean_spec in E as (P2 & F).
    split; [|split; [|auto]].
    + unfold dfs_contents in *; simpl. rewrite D in *. simpl in *. perm.
    + split; [|congruence]. destruct I1; split; auto.
  - injection H as <- <-. simpl. destruct (dfs_setMode_spec t m HI) as (P & I1 & M).
    split; [rewrite app_nil_r; exact P|]. split; [|auto]. split; [auto|]. rewrite M.
    destruct m; simpl in *; tauto.
Qed.

Lemma dfs_init_inv mb md : dfs_inv (dfs_init mb md) /\ mode_late (f_mode (dfs_init mb md)) = false.
Proof. repeat split. Qed.

Lemma dfs_size_contents t : dfs_inv t -> dfs_treesize t = Z.of_nat (length (dfs_contents t)).
Proof. intros (_ & H). unfold dfs_treesize, dfs_contents. rewrite app_length. lia. Qed.
Lemma dfs_empty_contents t : dfs_empty t = true <-> dfs_contents t = [].
Proof. unfold dfs_empty, dfs_contents. destruct (f_heap t), (f_dive t); simpl; split; congruence. Qed.

Lemma dfs_conservation sel mb md ops t tr :
  Forall early_op ops ->
  run (dfs_step sel) (dfs_init mb md) ops = Ok (t, tr) ->
  exists rest, still_open tr rest /\ dfs_treesize t = Z.of_nat (length rest) /\
    (dfs_empty t = true <-> rest = []) /\ Forall drop_justified tr.
Proof.
  intros HA H.
  destruct (run_conserves (dfs_step sel) dfs_contents
              (fun t => dfs_inv t /\ mode_late (f_mode t) = false) early_op
              drop_justified (dfs_step_ok sel) ops _ _ _ (dfs_init_inv mb md) HA H)
    as (P & (HI & _) & G).
  exists (dfs_contents t). split; [exact P|]. split; [apply dfs_size_contents; auto|].
  split; [apply dfs_empty_contents|]. auto.
Qed.

Lemma dfs_bound_correct sel dblmax mb md ops t tr :
  (big <= dblmax)%Q -> Forall early_op ops ->
  run (dfs_step sel) (dfs_init mb md) ops = Ok (t, tr) ->
  exists rest, still_open tr rest /\
    ((forall x, In x rest -> (dfs_bound dblmax t <= nobj x)%Q) /\
     ((dfs_bound dblmax t == big)%Q \/ (dfs_bound dblmax t == dblmax)%Q \/
      exists x, In x rest /\ (dfs_bound dblmax t == nobj x)%Q)).
Proof.
  intros HB HA H.
  destruct (run_conserves (dfs_step sel) dfs_contents
              (fun t => dfs_inv t /\ mode_late (f_mode t) = false) early_op
              drop_justified (dfs_step_ok sel) ops _ _ _ (dfs_init_inv mb md) HA H)
    as (P & _ & _).
  exists (dfs_contents t). split; [exact P|]. unfold dfs_bound, dfs_contents.
  set (a0 := match f_heap t with [] => dblmax | _ => min_obj big (f_heap t) end).
  destruct (min_obj_spec a0 (f_dive t)) as (H1 & H2 & H3).
  assert (Ha : (forall x, In x (f_heap t) -> (a0 <= nobj x)%Q) /\
               (a0 == big \/ a0 == dblmax \/ exists x, In x (f_heap t) /\ a0 == nobj x)%Q).
  { unfold a0. destruct (f_heap t) as [|n h] eqn:E.
    - simpl. split; [tauto|]. right; left; reflexivity.
    - rewrite <- E. destruct (min_obj_spec big (f_heap t)) as (K1 & K2 & K3). split; [auto|].
      destruct K3 as [K3|(x & Hx & K3)].
      + left. rewrite K3. reflexivity.
      + right; right. exists x. split; auto. rewrite K3. reflexivity. }
  destruct Ha as (Ha1 & Ha2). split.
  - intros x Hx. apply in_app_or in Hx as [Hx|Hx]; auto. specialize (Ha1 _ Hx). lra.
  - destruct H3 as [H3|(x & Hx & H3)].
    + rewrite H3. destruct Ha2 as [?|[?|(x & Hx & K)]]; auto.
      right; right. exists x. split; [apply in_or_app; auto|auto].
    + right; right. exists x. split; [apply in_or_app; auto|]. rewrite H3. reflexivity.
Qed.

(** No assertion fails when at least one backtrack is allowed and the depth
    limit is above the depth of every node. *)
Definition dfs_inv2 (t : dfs) : Prop :=
  f_clean t = false /\ f_size t = Z.of_nat (length (f_dive t)) /\
  (f_nback t < f_maxback t)%Z /\ (1 <= f_maxback t)%Z /\ (-1 <= f_board t)%Z /\
  (mode_late (f_mode t) = true -> f_dive t = []) /\
  (forall x, In x (f_dive t ++ f_heap t) -> (0 <= ndepth x /\ ndepth x + 1 <= f_maxdepth t)%Z).

Ltac splits := repeat match goal with |- _ /\ _ => split end.

Lemma dfs_loop_total fuel : forall t c,
  f_clean t = false -> f_size t = Z.of_nat (length (f_dive t)) ->
  (f_nback t < f_maxback t)%Z \/ f_dive t = [] ->
  (-1 <= f_board t)%Z ->
  (forall x, In x (f_dive t ++ f_heap t) -> (0 <= ndepth x /\ ndepth x + 1 <= f_maxdepth t)%Z) ->
  length (f_dive t) <= fuel ->
  exists t' r, dfs_loop fuel t c = Ok (t', r) /\
    f_clean t' = false /\ f_size t' = Z.of_nat (length (f_dive t')) /\
    f_maxback t' = f_maxback t /\ f_board t' = f_board t /\ f_maxdepth t' = f_maxdepth t /\
    f_mode t' = f_mode t /\
    (match r with Some _ => (f_nback t' < f_maxback t')%Z | None => f_dive t' = [] end) /\
    (f_dive t = [] -> f_dive t' = []) /\
    (forall x, In x (f_dive t' ++ f_heap t') -> (0 <= ndepth x /\ ndepth x + 1 <= f_maxdepth t)%Z).
Proof.
  induction fuel as [|fl IH]; intros t c Hc Hs Hn Hb Hd Hl.
  - destruct (f_dive t) eqn:D; [|simpl in Hl; lia]. simpl in Hs. simpl.
    assert (E : Z.leb (f_size t) 0 = true) by (apply Z.leb_le; lia). rewrite E.
    exists t, None. rewrite D. splits; auto.
  - simpl. destruct (f_dive t) as [|x dv] eqn:D.
    + simpl in Hs. assert (E : Z.leb (f_size t) 0 = true) by (apply Z.leb_le; lia). rewrite E.
      exists t, None. rewrite D. splits; auto.
    + destruct Hn as [Hn|?]; [|discriminate].
      simpl in Hs. assert (E : Z.leb (f_size t) 0 = false) by (apply Z.leb_gt; lia). rewrite E.
      destruct t as [h cl dv0 sz bd nb mb mk md mo]; simpl in *. subst cl dv0.
      assert (Dx : (0 <= ndepth x /\ ndepth x + 1 <= md)%Z) by (apply Hd; auto).
      assert (E1 : Z.leb (ndepth x - bd) md = true) by (apply Z.leb_le; lia). rewrite E1. simpl.
      set (A := if Qltb c (nobj x) then _ else _).
      assert (HA : f_clean (fst A) = false /\ f_size (fst A) = Z.of_nat (length (f_dive (fst A))) /\
                   f_dive (fst A) = dv /\ f_maxback (fst A) = mk /\ f_board (fst A) = bd /\
                   f_maxdepth (fst A) = md /\ f_mode (fst A) = mo /\
                   (f_nback (fst A) <= mk)%Z /\
                   (forall y, In y (opt_list (snd A) ++ f_heap (fst A)) -> In y (x :: dv ++ h))).
      { subst A. destruct (Qltb c (nobj x)); [|destruct (Nat.ltb (nleft x) (nbr x))]; simpl;
        repeat split; auto; try lia; intros y Hy; simpl in *; rewrite in_app_iff; tauto. }
      destruct A as [t2 nd]; simpl in HA.
      destruct HA as (A1 & A2 & A3 & A4 & A5 & A6 & A7 & A8 & A9).
      destruct (Z.leb (f_maxback t2) (f_nback t2)) eqn:EB.
      * set (t3 := match nd with
                   | Some y => mkDfs (y :: f_heap (dfs_pushDive t2)) (f_clean (dfs_pushDive t2)) (f_dive (dfs_pushDive t2)) (f_size (dfs_pushDive t2)) (f_board (dfs_pushDive t2)) (f_nback (dfs_pushDive t2)) (f_maxbfs (dfs_pushDive t2)) (f_maxback (dfs_pushDive t2)) (f_maxdepth (dfs_pushDive t2)) (f_mode (dfs_pushDive t2))
                   | None => dfs_pushDive t2 end).
        match goal with
        | |- exists t' r, ?X = _ /\ _ =>
            replace X with (dfs_loop fl t3 c) by (subst t3; destruct nd; reflexivity)
        end.
        destruct (IH t3 c) as (t' & r & -> & B1 & B2 & B3 & B4 & B5 & B6 & B7 & B8 & B9).
        -- subst t3; destruct nd; simpl; auto.
        -- subst t3; destruct nd; simpl; lia.
        -- right. subst t3; destruct nd; reflexivity.
        -- subst t3; destruct nd; simpl; lia.
        -- intros y Hy. assert (Hy2 : In y (opt_list nd ++ f_dive t2 ++ f_heap t2)).
           { subst t3; destruct nd; simpl in *; rewrite rev_append_rev, in_app_iff, <- in_rev in Hy;
             rewrite in_app_iff; tauto. }
           assert (Hy3 : In y (x :: dv ++ h)).
           { rewrite !in_app_iff, A3 in Hy2. destruct Hy2 as [Hy2|[Hy2|Hy2]].
             - apply A9. apply in_or_app; auto.
             - right. apply in_or_app; auto.
             - apply A9. apply in_or_app; auto. }
           replace (f_maxdepth t3) with md by (subst t3; destruct nd; simpl; congruence).
           apply Hd. exact Hy3.
        -- subst t3; destruct nd; simpl; lia.
        -- exists t', r. split; [reflexivity|].
           assert (f_maxback t3 = mk) by (subst t3; destruct nd; simpl; congruence).
           assert (f_board t3 = bd) by (subst t3; destruct nd; simpl; congruence).
           assert (f_maxdepth t3 = md) by (subst t3; destruct nd; simpl; congruence).
           assert (f_mode t3 = mo) by (subst t3; destruct nd; simpl; congruence).
           splits; try congruence; try discriminate.
           intros y Hy. apply B9 in Hy. congruence.
      * apply Z.leb_gt in EB. destruct nd as [y|].
        -- exists t2, (Some y). split; [reflexivity|]. rewrite A4. splits; auto; try discriminate; try lia.
           intros x0 H. rewrite A3 in H. apply in_app_or in H as [H|H].
           ++ apply (Hd x0). right. apply in_or_app; auto.
           ++ apply (Hd x0). apply A9. apply in_or_app; auto.
        -- destruct (IH t2 c) as (t' & r & -> & B1 & B2 & B3 & B4 & B5 & B6 & B7 & B8 & B9); auto; try lia.
           ++ intros y Hy. rewrite A6. rewrite A3 in Hy. apply in_app_or in Hy as [Hy|Hy].
              ** apply Hd. right. apply in_or_app; auto.
              ** apply Hd. apply A9. exact Hy.
           ++ rewrite A3. lia.
           ++ exists t', r. split; [reflexivity|]. splits; try congruence; try discriminate.
              intros y Hy. apply B9 in Hy. congruence.
Qed.

Lemma dfs_heap_best_in sel t c t' r d :
  dfs_heap_best sel t c = (t', r, d) ->
  (forall x, In x (f_heap t') -> In x (f_heap t)) /\ (forall x, r = Some x -> In x (f_heap t)) /\
  f_clean t' = f_clean t /\ f_board t' = f_board t /\ f_maxdepth t' = f_maxdepth t.
Proof.
  unfold dfs_heap_best. destruct (heap_best sel c (f_heap t)) as [[r' h] d'] eqn:E.
  intros H; injection H as <- <- <-. apply heap_best_spec in E as (P & F & R). simpl.
  splits; auto.
  - intros x Hx. eapply Permutation_in; [symmetry; exact P|]. rewrite !in_app_iff; auto.
  - intros x ->. eapply Permutation_in; [symmetry; exact P|]. simpl. auto.
Qed.

Definition fine {A} (Q : A -> Prop) (x : outcome A) : Prop :=
  match x with Ok a => Q a | NullDeref => True | _ => False end.

Lemma dfs_best_tail_total sel t c :
  dfs_inv2 t -> f_mode t <> Enlarge ->
  fine (fun a => dfs_inv2 (fst (fst a)) /\ f_maxdepth (fst (fst a)) = f_maxdepth t) (dfs_best_tail sel t c).
Proof.
  intros (Hc & Hs & Hn & Hm & Hb & Hl & Hd) HE. unfold dfs_best_tail.
  assert (K : exists t1 d1, (match f_mode t with
      | FindSolutions => Ok (t, [])
      | _ => match f_dive t with
          | [] => let '(t', _, d) := dfs_heap_best sel t c in Ok (t', d)
          | _ => AssertFail end end) = Ok (t1, d1) /\ dfs_inv2 t1 /\ f_maxdepth t1 = f_maxdepth t /\
      f_mode t1 = f_mode t).
  { destruct (f_mode t) eqn:M; [congruence| | |].
    - exists t, []. rewrite M. splits; auto. split; auto. rewrite M. splits; auto.
    - rewrite (Hl eq_refl) in *. destruct (dfs_heap_best sel t c) as [[t' r] d] eqn:E.
      exists t', d. pose proof (dfs_heap_best_spec _ _ _ _ _ _ E) as (_ & _ & _ & Q1 & Q2 & Q3 & Q4 & Q5).
      pose proof (dfs_heap_best_in _ _ _ _ _ _ E) as (R1 & _ & R2 & R3 & R4).
      assert (D : f_dive t = []) by (apply Hl; reflexivity).
      splits; auto; [|congruence]. split; [congruence|]. rewrite Q1, Q3, Q4, Q5, R3, R4, D. splits; auto;
      intros x Hx; apply Hd; simpl in *; auto.
    - rewrite (Hl eq_refl) in *. destruct (dfs_heap_best sel t c) as [[t' r] d] eqn:E.
      exists t', d. pose proof (dfs_heap_best_spec _ _ _ _ _ _ E) as (_ & _ & _ & Q1 & Q2 & Q3 & Q4 & Q5).
      pose proof (dfs_heap_best_in _ _ _ _ _ _ E) as (R1 & _ & R2 & R3 & R4).
      assert (D : f_dive t = []) by (apply Hl; reflexivity).
      splits; auto; [|congruence]. split; [congruence|]. rewrite Q1, Q3, Q4, Q5, R3, R4, D. splits; auto;
      intros x Hx; apply Hd; simpl in *; auto. }
  destruct K as (t1 & d1 & -> & (Ic & Is & In' & Im & Ib & Il & Id) & MD & MM).
  cbn [bind].
  assert (L : Z.ltb (f_nback t1) (f_maxback t1) = true) by (apply Z.ltb_lt; auto). rewrite L.
  cbn [negb].
  destruct (dfs_loop_total (S (length (f_dive t1))) t1 c) as
    (t2 & r & -> & B1 & B2 & B3 & B4 & B5 & B6 & B7 & B8 & B9); auto.
  cbn [bind]. destruct r as [x|].
  - simpl. split; [|congruence]. split; auto. rewrite B3, B4, B5, B6. splits; auto; try lia.
  - rewrite B7. rewrite B7 in B2. simpl in B2. rewrite B2. simpl Z.eqb.
    destruct (dfs_heap_best sel t2 c) as [[t3 r3] d3] eqn:E.
    pose proof (dfs_heap_best_spec _ _ _ _ _ _ E) as (_ & _ & _ & Q1 & Q2 & Q3 & Q4 & Q5).
    pose proof (dfs_heap_best_in _ _ _ _ _ _ E) as (R1 & R1' & R2 & R3 & R4).
    destruct r3 as [x|]; simpl; [|auto]. split; [|congruence].
    split; simpl; [congruence|]. rewrite Q1, B7, Q5, B2, Q4, B3. splits; auto; try lia.
    + specialize (R1' _ eq_refl). destruct (B9 x); [apply in_or_app; auto|lia].
    + intros y Hy. rewrite R4, B5. apply B9. apply in_or_app. right. apply R1. exact Hy.
Qed.

Lemma dfs_setMode_inv2 t m : dfs_inv2 t -> dfs_inv2 (dfs_setMode t m) /\
  f_maxdepth (dfs_setMode t m) = f_maxdepth t /\ f_mode (dfs_setMode t m) = m.
Proof.
  intros H. unfold dfs_setMode. destruct (mode_eqb m (f_mode t)) eqn:E.
  - splits; auto. destruct m, (f_mode t); simpl in E; congruence.
  - destruct H as (Hc & Hs & Hn & Hm & Hb & Hl & Hd). simpl. splits; auto.
    split; simpl; [auto|]. splits; auto; try lia.
    intros x Hx. apply Hd. eapply Permutation_in; [apply rev_append_perm|exact Hx].
Qed.

Lemma dfs_step_total sel md t o :
  dfs_inv2 t /\ f_maxdepth t = md -> search_op o -> depth_ok md o ->
  fine (fun a => dfs_inv2 (fst a) /\ f_maxdepth (fst a) = md) (dfs_step sel t o).
Proof.
  intros (HI & HD) HA HO. destruct o as [x| | |c|c|m]; cbn [dfs_step]; simpl in HA, HO; try tauto.
  - destruct HI as (Hc & Hs & Hn & Hm & Hb & Hl & Hd). unfold dfs_push. rewrite Hc.
    destruct (mode_late (f_mode t)) eqn:ML.
    + rewrite (Hl eq_refl) in *. simpl. split; [|auto]. split; simpl; [auto|].
      splits; auto.
      intros y [<-|Hy]; [lia|]. apply Hd. simpl. auto.
    + simpl. split; [|auto]. split; simpl; [auto|]. splits; auto; try lia.
      * congruence.
      * intros y [<-|Hy]; [lia|]. apply Hd. auto.
  - unfold dfs_best. pose proof HI as (Hc & Hs & Hn & Hm & Hb & Hl & Hd). rewrite Hc.
    assert (T : forall t1, dfs_inv2 t1 -> f_mode t1 <> Enlarge -> f_maxdepth t1 = md ->
              fine (fun a => dfs_inv2 (fst a) /\ f_maxdepth (fst a) = md)
                (do ' (t', r, d) <- dfs_best_tail sel t1 c; Ok (t', EvBest c r d))).
    { intros t1 H1 H2 H3. pose proof (dfs_best_tail_total sel t1 c H1 H2) as F.
      destruct (dfs_best_tail sel t1 c) as [[[t' r] d]| | | | | | |]; simpl in *; auto.
      destruct F; split; auto; congruence. }
    destruct (f_mode t) eqn:M.
    + destruct (Z.eqb (f_size t) 0) eqn:Z0.
      * apply T; simpl; auto; try congruence.
        split; simpl; [auto|]. splits; auto; discriminate.
      * destruct (rev (f_dive t)) as [|x rdv] eqn:R.
        { exfalso. assert (f_dive t = []) as D by (rewrite <- (rev_involutive (f_dive t)), R; reflexivity).
          rewrite D in Hs. simpl in Hs. apply Z.eqb_neq in Z0. lia. }
        assert (D : f_dive t = rev rdv ++ [x])
            by (rewrite <- (rev_involutive (f_dive t)), R; reflexivity).
        destruct (Z.ltb (f_maxbfs t) (ndepth x)).
        -- destruct (dfs_setMode_inv2 t FindSolutions HI) as (I1 & D1 & M1).
           apply T; auto; congruence.
        -- simpl. split; [|auto]. split; simpl; [auto|]. try rewrite M.
           rewrite D, app_length in Hs. simpl in Hs. splits; auto; try lia; try discriminate.
           intros y Hy. apply Hd. rewrite D. rewrite in_app_iff in *. rewrite in_app_iff. tauto.
    + apply T; auto; congruence.
    + apply T; auto; congruence.
    + apply T; auto; congruence.
  - unfold dfs_cleanTree. cbv zeta. pose proof HI as (Hc & Hs & Hn & Hm & Hb & Hl & Hd).
    destruct (heap_clean c (f_heap (dfs_pushDive t))) as [h' d] eqn:E.
    apply heap_clean_spec in E as (P & F). simpl. split; [|auto].
    split; simpl; [auto|]. splits; auto; try lia.
    intros x Hx. apply Hd. eapply Permutation_in; [apply rev_append_perm|].
    simpl in P. eapply Permutation_in; [symmetry; exact P|]. apply in_or_app; auto.
  - simpl. destruct (dfs_setMode_inv2 t m HI) as (I1 & D1 & M1). split; auto. congruence.
Qed.

Lemma dfs_run_total sel md ops : forall t,
  dfs_inv2 t /\ f_maxdepth t = md -> Forall search_op ops -> Forall (depth_ok md) ops ->
  fine (fun a => dfs_inv2 (fst a)) (run (dfs_step sel) t ops).
Proof.
  induction ops as [|o ops IH]; intros t HI HS HD; simpl.
  - tauto.
  - inversion HS; inversion HD; subst.
    pose proof (dfs_step_total sel md t o HI ltac:(assumption) ltac:(assumption)) as F.
    destruct (dfs_step sel t o) as [[t1 e]| | | | | | |]; simpl in *; auto.
    specialize (IH t1 F ltac:(assumption) ltac:(assumption)).
    destruct (run (dfs_step sel) t1 ops) as [[t2 es]| | | | | | |]; simpl in *; auto.
Qed.

Lemma dfs_no_assert sel mb md ops :
  (1 <= mb)%Z -> Forall search_op ops -> Forall (depth_ok md) ops ->
  match run (dfs_step sel) (dfs_init mb md) ops with
  | Ok (t, _) => (f_nback t < f_maxback t)%Z
  | NullDeref => True
  | _ => False
  end.
Proof.
  intros H1 H2 H3.
  pose proof (dfs_run_total sel md ops (dfs_init mb md)) as F.
  assert (I0 : dfs_inv2 (dfs_init mb md) /\ f_maxdepth (dfs_init mb md) = md).
  { split; [|reflexivity]. split; simpl; [auto|]. splits; auto; try lia; try tauto. }
  specialize (F I0 H2 H3).
  destruct (run (dfs_step sel) (dfs_init mb md) ops) as [[t tr]| | | | | | |]; simpl in *; auto.
  destruct F as (_ & _ & ? & _). auto.
Qed.

(** *** Refutations *)
Lemma still_open_length tr rest : still_open tr rest ->
  length (pushed tr) = length (returned tr) + length (popped tr) + length (dropped tr) + length rest.
Proof.
  unfold still_open. intros P. apply Permutation_length in P. rewrite !app_length in P. lia.
Qed.

Definition nd (i : nat) (obj : Z) (d : Z) (l b : nat) : node :=
  mkNode i (inject_Z obj) (inject_Z obj) d l b.
Definition sel0 (_ : list node) : nat := 0.
Definition cmp0 (x y : node) : bool := Qltb (nobj y) (nobj x).

(** A node with three branches: the parent put back for its third branch is
    overwritten when its second child arrives. *)
Definition probed_lost_ops : list op :=
  [ Push (nd 0 0 0 3 3); Best 100%Q;
    Push (nd 0 0 0 2 3); Push (nd 1 1 1 2 2); Best 100%Q;
    Push (nd 0 0 0 1 3); Push (nd 2 2 1 2 2) ].
Lemma probed_lost :
  exists t tr, run (probed_step sel0 cmp0) (probed_init false) probed_lost_ops = Ok (t, tr) /\
    ~ exists rest, still_open tr rest /\ probed_size t = length rest.
Proof.
  eexists _, _. split; [vm_compute; reflexivity|].
  intros (rest & P & L). apply still_open_length in P. rewrite <- L in P. vm_compute in P. discriminate.
Qed.
Lemma probed_null :
  run (probed_step sel0 cmp0) (probed_init true) [Push (mkNode 0 0 5 0 2 2); Best 4%Q] = NullDeref.
Proof. vm_compute. reflexivity. Qed.
Lemma C03_full_false : ~ C03_full.
Proof.
  intros H. specialize (H sel0 cmp0 true [Push (mkNode 0 0 5 0 2 2); Best 4%Q]).
  rewrite probed_null in H. exact H.
Qed.

Definition dfs_lost_ops : list op :=
  [ Push (nd 0 0 0 2 2); Push (nd 1 1 0 2 2); SetMode CloseBound; Best 100%Q ].
Lemma C04_full_false : ~ C04_full.
Proof.
  intros H.
  destruct (run (dfs_step sel0) (dfs_init 5 1000) dfs_lost_ops) as [[t tr]| | | | | | |] eqn:E;
    vm_compute in E; try discriminate.
  destruct (H sel0 5%Z 1000%Z dfs_lost_ops t tr) as (rest & P & L); [lia|vm_compute; exact E|].
  injection E as <- <-. apply still_open_length in P.
  assert (L0 : (0 = Z.of_nat (length rest))%Z) by exact L.
  assert (L1 : length rest = 0) by lia. rewrite L1 in P. vm_compute in P. discriminate.
Qed.

(** max_backtracks_in_dive = 0 *)
Definition dfs_assert_ops1 : list op :=
  [ Push (nd 0 0 5 2 2); Best 100%Q; Push (nd 1 1 6 2 2); Best 100%Q ].
Lemma dfs_assert1 : run (dfs_step sel0) (dfs_init 0 1000) dfs_assert_ops1 = AssertFail.
Proof. vm_compute. reflexivity. Qed.
(** max_dive_depth = 1 : a node two levels below the diving board aborts
    instead of being put on the heap *)
Definition dfs_assert_ops2 : list op :=
  [ Push (nd 0 0 5 2 2); Best 100%Q; Push (nd 1 1 6 2 2); Best 100%Q;
    Push (nd 2 1 7 2 2); Best 100%Q ].
Lemma dfs_assert2 : run (dfs_step sel0) (dfs_init 5 1) dfs_assert_ops2 = AssertFail.
Proof. vm_compute. reflexivity. Qed.
(** Only nodes above the cutoff are left: the heap answers NULL, which is dereferenced *)
Lemma dfs_null : run (dfs_step sel0) (dfs_init 5 1000) [Push (nd 0 10 5 2 2); Best 5%Q] = NullDeref.
Proof. vm_compute. reflexivity. Qed.
Lemma C05_full_false : ~ C05_full.
Proof.
  intros H. destruct (H sel0 0%Z 1000%Z dfs_assert_ops1) as (t & tr & E); try lia.
  - repeat constructor.
  - rewrite dfs_assert1 in E. discriminate.
Qed.

Lemma C05_all_false :
  run (dfs_step sel0) (dfs_init 0 1000) dfs_assert_ops1 = AssertFail /\
  run (dfs_step sel0) (dfs_init 5 1) dfs_assert_ops2 = AssertFail /\
  run (dfs_step sel0) (dfs_init 5 1000) [Push (nd 0 10 5 2 2); Best 5%Q] = NullDeref /\
  ~ C05_full.
Proof. exact (conj dfs_assert1 (conj dfs_assert2 (conj dfs_null C05_full_false))). Qed.

(** *** Drained trees: the observable form of conservation *)
Lemma diver_drained sel stop ops t tr :
  run (diver_step sel) (diver_init stop) ops = Ok (t, tr) -> diver_empty t = true ->
  Permutation (pushed tr) (returned tr ++ popped tr ++ dropped tr).
Proof.
  intros H HE. destruct (diver_conservation _ _ _ _ _ H) as (rest & P & _ & E & _).
  apply E in HE. subst rest. unfold still_open in P. rewrite app_nil_r in P. exact P.
Qed.

(** A NULL answer of bestNode means the dive tree has no open node left below
    the cutoff: everything still in it was discarded. *)
Lemma diver_best_null sel t c t' d :
  d_clean t = false -> diver_best sel t c = (t', None, d) -> diver_empty t' = true.
Proof.
  assert (K : forall u u' d', d_next u = None -> diver_heap_best sel u c = (u', None, d') -> diver_empty u' = true).
  { intros u u' d' Hn. unfold diver_heap_best.
    destruct (heap_best sel c (d_heap u)) as [[r h] dd] eqn:E. intros H. injection H as <- -> <-.
    apply heap_best_none in E. subst h. unfold diver_empty; simpl. rewrite Hn. reflexivity. }
  intros Hc. unfold diver_best. rewrite Hc. destruct (d_next t) as [x|] eqn:En.
  - destruct (Qltb (nobj x) c).
    + destruct (d_stop t && Qle_bool c (nguess x)).
      * apply K. reflexivity.
      * discriminate.
    + apply K. reflexivity.
  - apply K. exact En.
Qed.
Lemma diver_clean_inv sel : forall ops t t' tr, d_clean t = false ->
  run (diver_step sel) t ops = Ok (t', tr) -> d_clean t' = false.
Proof.
  induction ops as [|o ops IH]; intros t t' tr Hc H; simpl in H.
  - injection H as <- <-. exact Hc.
  - apply bind_ok in H as ([t1 e] & E & H). apply bind_ok in H as ([t2 es] & E2 & H).
    injection H as <- <-. eapply IH; [|exact E2].
    destruct o as [x| | |c|c|m]; cbn [diver_step] in E.
    + apply bind_ok in E as (t3 & E & E'). injection E' as <- <-. unfold diver_push in E.
      rewrite Hc in E. destruct (fresh x); [destruct (d_next t); [discriminate|]|]; injection E as <-; auto.
    + apply bind_ok in E as ([t3 y] & E & E'). injection E' as <- <-. unfold diver_pop in E.
      rewrite Hc in E. destruct (d_next t); [injection E as <- <-; auto|].
      destruct (heap_take sel (d_heap t)) as [[z h]|]; [|discriminate]. injection E as <- <-; auto.
    + apply bind_ok in E as (y & E & E'). injection E' as <- <-. exact Hc.
    + assert (K : forall u u' r d, diver_heap_best sel u c = (u', r, d) -> d_clean u' = d_clean u).
      { intros u u' r d. unfold diver_heap_best.
        destruct (heap_best sel c (d_heap u)) as [[? ?] ?]. intros HH; injection HH as <- <- <-. reflexivity. }
      destruct (diver_best sel t c) as [[t3 r] d] eqn:EB. injection E as <- <-.
      unfold diver_best in EB. rewrite Hc in EB. destruct (d_next t) as [x|].
      * destruct (Qltb (nobj x) c); [destruct (d_stop t && Qle_bool c (nguess x))|].
        -- apply K in EB. simpl in EB. congruence.
        -- injection EB as <- <- <-. reflexivity.
        -- apply K in EB. simpl in EB. congruence.
      * apply K in EB. congruence.
    + unfold diver_cleanTree in E. cbv zeta in E. destruct (heap_clean c _) as [h d]. injection E as <- <-. reflexivity.
    + injection E as <- <-. exact Hc.
Qed.
Lemma diver_null_complete sel stop ops t tr c d :
  run (diver_step sel) (diver_init stop) (ops ++ [Best c]) = Ok (t, tr ++ [EvBest c None d]) ->
  Permutation (pushed tr) (returned tr ++ popped tr ++ dropped (tr ++ [EvBest c None d])) /\
  Forall (fun x => (c <= nobj x)%Q) d.
Proof.
  intros H. pose proof H as H0. rewrite run_app in H.
  apply bind_ok in H as ([t1 tr1] & E1 & H). apply bind_ok in H as ([t2 tr2] & E2 & H).
  injection H as <- EQ. cbn [run diver_step] in E2.
  destruct (diver_best sel t1 c) as [[t3 r3] d3] eqn:EB. cbn [bind] in E2. injection E2 as <- <-.
  apply app_inj_tail in EQ as (<- & EQ). injection EQ as -> ->.
  assert (EM : diver_empty t3 = true)
    by (eapply diver_best_null; [eapply diver_clean_inv; [|exact E1]; reflexivity|exact EB]).
  pose proof (diver_drained _ _ _ _ _ H0 EM) as P.
  destruct (diver_conservation _ _ _ _ _ H0) as (_ & _ & _ & _ & G & _).
  split.
  - unfold pushed, returned, popped in P |- *. rewrite !flat_map_app in P. simpl in P.
    rewrite !app_nil_r in P. exact P.
  - apply Forall_app in G as (_ & G). inversion G; subst. assumption.
Qed.

(** *** The bound in an arbitrary state *)
Lemma diver_bound_state t : bound_correct big (diver_contents t) (diver_bound t).
Proof.
  unfold diver_bound, diver_contents.
  set (acc := match d_next t with Some x => nobj x | None => big end).
  destruct (min_obj_spec acc (d_heap t)) as (H1 & H2 & H3). split.
  - intros x Hx. apply in_app_or in Hx as [Hx|Hx]; auto.
    destruct (d_next t) as [y|]; simpl in Hx; [|tauto]. destruct Hx as [<-|[]]. exact H1.
  - destruct H3 as [H3|(x & Hx & H3)].
    + destruct (d_next t) as [y|]; subst acc.
      * right. exists y. simpl. split; [auto|]. rewrite H3. reflexivity.
      * left. rewrite H3. reflexivity.
    + right. exists x. split; [apply in_or_app; auto|]. rewrite H3. reflexivity.
Qed.
Lemma dfs_bound_state dblmax t :
  (forall x, In x (dfs_contents t) -> (dfs_bound dblmax t <= nobj x)%Q) /\
  ((dfs_bound dblmax t == big)%Q \/ (dfs_bound dblmax t == dblmax)%Q \/
   exists x, In x (dfs_contents t) /\ (dfs_bound dblmax t == nobj x)%Q).
Proof.
  unfold dfs_bound, dfs_contents.
  set (a0 := match f_heap t with [] => dblmax | _ => min_obj big (f_heap t) end).
  destruct (min_obj_spec a0 (f_dive t)) as (H1 & H2 & H3).
  assert (Ha : (forall x, In x (f_heap t) -> (a0 <= nobj x)%Q) /\
               (a0 == big \/ a0 == dblmax \/ exists x, In x (f_heap t) /\ a0 == nobj x)%Q).
  { unfold a0. destruct (f_heap t) as [|n h] eqn:E.
    - simpl. split; [tauto|]. right; left; reflexivity.
    - rewrite <- E. destruct (min_obj_spec big (f_heap t)) as (K1 & K2 & K3). split; [auto|].
      destruct K3 as [K3|(x & Hx & K3)].
      + left. rewrite K3. reflexivity.
      + right; right. exists x. split; auto. rewrite K3. reflexivity. }
  destruct Ha as (Ha1 & Ha2). split.
  - intros x Hx. apply in_app_or in Hx as [Hx|Hx]; auto. specialize (Ha1 _ Hx). lra.
  - destruct H3 as [H3|(x & Hx & H3)].
    + rewrite H3. destruct Ha2 as [?|[?|(x & Hx & K)]]; auto.
      right; right. exists x. split; [apply in_or_app; auto|auto].
    + right; right. exists x. split; [apply in_or_app; auto|]. rewrite H3. reflexivity.
Qed.

(** *** The limits of a dive *)
Lemma dfs_loop_empty fuel t c t' r : dfs_inv t -> f_dive t = [] -> dfs_loop fuel t c = Ok (t', r) -> t' = t /\ r = None.
Proof.
  intros (_ & Hs) D H. rewrite D in Hs. simpl in Hs.
  destruct fuel; simpl in H; rewrite Hs in H; simpl in H; injection H as <- <-; auto.
Qed.
Definition second (x : node) : Z := if Nat.ltb (nleft x) (nbr x) then 1%Z else 0%Z.
Lemma dfs_loop_some fuel : forall t c t' x,
  dfs_inv t -> dfs_loop fuel t c = Ok (t', Some x) ->
  exists pre, f_dive t = pre ++ x :: f_dive t' /\ Forall (fun y => (c < nobj y)%Q) pre /\ (nobj x <= c)%Q /\
    f_heap t' = rev pre ++ f_heap t /\
    f_nback t' = (f_nback t + Z.of_nat (length pre) + second x)%Z /\ (f_nback t' < f_maxback t')%Z /\
    Forall (fun y => (ndepth y - f_board t <= f_maxdepth t)%Z) (pre ++ [x]) /\
    f_board t' = f_board t /\ f_maxdepth t' = f_maxdepth t /\ f_maxback t' = f_maxback t.
Proof.
  induction fuel as [|fl IH]; intros t c t' x HI H; simpl in H.
  - destruct (Z.leb (f_size t) 0); discriminate.
  - destruct (Z.leb (f_size t) 0); [discriminate|].
    destruct t as [h cl dv sz bd nb mb mk md mo]; simpl in H.
    destruct HI as (Hc & Hs); simpl in Hc, Hs. subst cl.
    destruct dv as [|y dv]; [discriminate|]. cbn [length] in Hs.
    destruct (Z.leb (ndepth y - bd) md) eqn:ED; cbn [negb] in H; [|discriminate]. apply Z.leb_le in ED.
    destruct (Qltb c (nobj y)) eqn:EC.
    + apply Qltb_lt in EC. cbn [with_nback f_maxback f_nback f_heap f_clean f_dive f_size f_board f_maxbfs f_maxdepth f_mode] in H.
      destruct (Z.leb mk (nb + 1)) eqn:EB.
      * apply dfs_loop_empty in H as (_ & H); [discriminate| |reflexivity].
        split; [reflexivity|]. simpl. lia.
      * apply IH in H as (pre & D & F & L & Hh & Hn & Hm & Fd & B1 & B2 & B3); [|split; [reflexivity|simpl; lia]].
        cbn [with_nback f_maxback f_nback f_heap f_clean f_dive f_size f_board f_maxbfs f_maxdepth f_mode] in *.
        exists (y :: pre). rewrite D. splits; auto.
        -- rewrite Hh. simpl. rewrite <- app_assoc. reflexivity.
        -- rewrite Hn. cbn [length]. lia.
        -- simpl. constructor; auto.
    + apply Qltb_ge in EC.
      destruct (Nat.ltb (nleft y) (nbr y)) eqn:EL;
      cbn [with_nback f_maxback f_nback f_heap f_clean f_dive f_size f_board f_maxbfs f_maxdepth f_mode] in H.
      * destruct (Z.leb mk (nb + 1)) eqn:EB.
        -- apply dfs_loop_empty in H as (_ & H); [discriminate| |reflexivity].
           split; [reflexivity|]. simpl. lia.
        -- apply Z.leb_gt in EB. injection H as <- <-. exists []. simpl. unfold second. rewrite EL. splits; auto; lia.
      * destruct (Z.leb mk nb) eqn:EB.
        -- apply dfs_loop_empty in H as (_ & H); [discriminate| |reflexivity].
           split; [reflexivity|]. simpl. lia.
        -- apply Z.leb_gt in EB. injection H as <- <-. exists []. simpl. unfold second. rewrite EL. splits; auto; lia.
Qed.

Lemma dfs_run_inv sel mb md ops t tr : Forall early_op ops -> run (dfs_step sel) (dfs_init mb md) ops = Ok (t, tr) -> dfs_inv t /\ mode_late (f_mode t) = false.
Proof.
  intros HA H.
  destruct (run_conserves (dfs_step sel) dfs_contents
              (fun t => dfs_inv t /\ mode_late (f_mode t) = false) early_op
              drop_justified (dfs_step_ok sel) ops _ _ _ (dfs_init_inv mb md) HA H) as (_ & HI & _). exact HI.
Qed.

(** bestNode during a dive: it goes on with the newest node of the dive that is not above the
    cutoff, or a new dive begins at a node of the heap. *)
Lemma dfs_best_dive sel t c t' r d : dfs_inv t -> f_mode t = FindSolutions -> dfs_best sel t c = Ok (t', r, d) ->
  exists x, r = Some x /\
  ((exists pre, d = [] /\ f_dive t = pre ++ x :: f_dive t' /\ Forall (fun y => (c < nobj y)%Q) pre /\ (nobj x <= c)%Q /\
     f_heap t' = rev pre ++ f_heap t /\
     f_nback t' = (f_nback t + Z.of_nat (length pre) + second x)%Z /\ (f_nback t' < f_maxback t')%Z /\
     (ndepth x - f_board t' <= f_maxdepth t')%Z /\ f_board t' = f_board t) \/
   (f_dive t' = [] /\ (nobj x < c)%Q /\ f_board t' = ndepth x /\ f_nback t' = 0%Z)).
Proof.
  intros HI HM H. unfold dfs_best in H. destruct HI as (Hc & Hs). rewrite Hc, HM in H.
  unfold dfs_best_tail in H. rewrite HM in H. cbn [bind] in H.
  destruct (Z.ltb (f_nback t) (f_maxback t)); cbn [negb] in H; [|discriminate].
  apply bind_ok in H as ([t2 r2] & EL & H). destruct r2 as [x|].
  - injection H as <- <- <-. exists x. split; [reflexivity|]. left.
    destruct (dfs_loop_some _ _ _ _ _ (conj Hc Hs) EL) as (pre & D & F & L & Hh & Hn & Hm & Fd & B1 & B2 & B3).
    exists pre. apply Forall_app in Fd as (_ & Fd). apply Forall_inv in Fd. cbv beta in Fd.
    splits; auto. congruence.
  - destruct (f_dive t2) eqn:D; [|discriminate]. destruct (Z.eqb (f_size t2) 0); [|discriminate].
    unfold dfs_heap_best in H.
    destruct (heap_best sel c (f_heap t2)) as [[r3 h3] d3] eqn:E. apply heap_best_spec in E as (_ & _ & R).
    destruct r3 as [x|]; [|discriminate]. injection H as <- <- <-. exists x. split; [reflexivity|]. right.
    cbn [f_dive f_board f_nback]. splits; auto.
Qed.

(** In the two late modes each call of bestNode that returns loses one node. *)
Lemma dfs_best_late sel t c t' r d : f_clean t = false -> mode_late (f_mode t) = true -> dfs_inv t -> dfs_best sel t c = Ok (t', r, d) ->
  exists lost, Permutation (dfs_contents t) (lost :: opt_list r ++ d ++ dfs_contents t') /\ (nobj lost < c)%Q.
Proof.
  intros Hc HM HI H. unfold dfs_best in H. rewrite Hc in H.
  assert (K : dfs_best_tail sel t c = Ok (t', r, d)) by (destruct (f_mode t); [discriminate HM|discriminate HM|exact H|exact H]).
  clear H. unfold dfs_best_tail in K.
  apply bind_ok in K as ([t1 d1] & K1 & K).
  assert (K2 : f_dive t = [] /\ exists r1, dfs_heap_best sel t c = (t1, r1, d1)).
  { destruct (f_mode t); try discriminate HM; (destruct (f_dive t); [|discriminate K1]); split; auto;
    destruct (dfs_heap_best sel t c) as [[ta ra] da]; injection K1 as <- <-; eauto. }
  clear K1. destruct K2 as (D & r1 & E1).
  pose proof (dfs_heap_best_spec _ _ _ _ _ _ E1) as (P1 & _ & I1 & D1 & _ & _ & _ & S1). specialize (I1 HI).
  destruct (Z.ltb (f_nback t1) (f_maxback t1)); cbn [negb] in K; [|discriminate].
  apply bind_ok in K as ([t2 r2] & EL & K). rewrite D in D1.
  destruct (dfs_loop_empty _ _ _ _ _ I1 D1 EL) as (-> & ->).
  rewrite D1 in K. destruct (Z.eqb (f_size t1) 0); [|discriminate].
  destruct (dfs_heap_best sel t1 c) as [[t3 r3] d3] eqn:E3.
  pose proof (dfs_heap_best_spec _ _ _ _ _ _ E3) as (P3 & _).
  destruct r3 as [x|]; [|discriminate]. injection K as <- <- <-.
  destruct r1 as [lost|].
  - exists lost. split.
    + unfold dfs_contents in *. cbn [f_dive f_heap opt_list] in *. perm.
    + unfold dfs_heap_best in E1. destruct (heap_best sel c (f_heap t)) as [[ra ha] da] eqn:EH.
      apply heap_best_spec in EH as (_ & _ & R). injection E1 as <- -> <-. exact R.
  - exfalso. unfold dfs_heap_best in E1. destruct (heap_best sel c (f_heap t)) as [[ra ha] da] eqn:EH.
    injection E1 as <- -> <-. apply heap_best_none in EH. subst ha.
    unfold dfs_heap_best in E3. cbn [f_heap] in E3. unfold heap_best in E3. simpl in E3. discriminate.
Qed.

(** pop removes what top shows, when top does not stop on its assertion. *)
Lemma dfs_pop_is_top sel t t' x y : dfs_inv t -> dfs_pop sel t = Ok (t', x) -> dfs_top sel t = Ok y -> x = y.
Proof.
  intros (Hc & Hs) HP HT. unfold dfs_pop, dfs_top in *. rewrite Hc in *.
  destruct (f_dive t) as [|z dv] eqn:D.
  - simpl in Hs. assert (E : Z.eqb (f_size t) 0 = true) by (apply Z.eqb_eq; lia). rewrite E in HT.
    destruct (heap_take sel (f_heap t)) as [[w h]|]; [|discriminate]. injection HP as <- <-.
    destruct (f_mode t); cbn [bind] in HT; congruence.
  - destruct (mode_late (f_mode t)) eqn:M; [discriminate|]. injection HP as <- <-.
    cbn [length] in Hs. assert (E : Z.eqb (f_size t) 0 = false) by (apply Z.eqb_neq; lia). rewrite E in HT.
    destruct (f_mode t); try discriminate; congruence.
Qed.
