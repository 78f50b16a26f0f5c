(** * Proofs about the "new point" protocol *)
From Coq Require Import List QArith Arith Bool Lia.
From Verif Require Import Nwx_Model Nwx_Spec.
Import ListNotations.
Set Implicit Arguments.

(** ** Filling the full point *)

Lemma put_length : forall l j v, length (put l j v) = length l.
Proof. induction l; destruct j; simpl; intros; auto. Qed.

Lemma put_nth : forall l j v k, (j < length l)%nat ->
  nth k (put l j v) 0 = if (j =? k)%nat then v else nth k l 0.
Proof.
  induction l as [|a l IH]; simpl; intros j v k L; [lia|].
  destruct j, k; simpl; auto. apply IH. lia.
Qed.

Lemma write_length : forall vi y l, length (write vi y l) = length l.
Proof.
  induction vi; destruct y; simpl; intros; auto. rewrite IHvi. apply put_length.
Qed.

Lemma place_None : forall j vi, ~ In j vi -> place j vi = None.
Proof.
  induction vi as [|a vi IH]; simpl; intros N; auto.
  destruct (Nat.eqb_spec a j); [exfalso; auto|]. rewrite IH; auto.
Qed.

Lemma place_lt : forall j vi k, place j vi = Some k -> (k < length vi)%nat.
Proof.
  induction vi as [|a vi IH]; simpl; intros k E; [discriminate|].
  destruct (a =? j)%nat; [injection E as <-; lia|].
  destruct (place j vi); [|discriminate]. injection E as <-.
  specialize (IH _ eq_refl). lia.
Qed.

Lemma write_nth : forall vi y l j,
  NoDup vi -> (forall j, In j vi -> (j < length l)%nat) -> (length vi <= length y)%nat ->
  nth j (write vi y l) 0 =
    match place j vi with Some k => nth k y 0 | None => nth j l 0 end.
Proof.
  induction vi as [|a vi IH]; intros y l j ND B L; simpl; auto.
  destruct y as [|v y]; simpl in L; [lia|].
  inversion ND as [|? ? NI ND']; subst.
  rewrite IH; auto.
  - destruct (Nat.eqb_spec a j) as [->|N].
    + rewrite place_None by assumption. rewrite put_nth by (apply B; left; auto).
      rewrite Nat.eqb_refl. reflexivity.
    + destruct (place j vi); auto. rewrite put_nth by (apply B; left; auto).
      apply Nat.eqb_neq in N. rewrite N. reflexivity.
  - intros k I. rewrite put_length. apply B. right. auto.
  - lia.
Qed.

Lemma nth_ext0 : forall (a b : pt), length a = length b ->
  (forall j, (j < length a)%nat -> nth j a 0 = nth j b 0) -> a = b.
Proof. intros a b L E. apply nth_ext with (d := 0) (d' := 0); auto. Qed.

Lemma spread_length : forall s vi y, length (spread s vi y) = length s.
Proof. intros. unfold spread. rewrite map_length, seq_length. reflexivity. Qed.

Lemma spread_nth : forall s vi y j, (j < length s)%nat ->
  nth j (spread s vi y) 0 = match place j vi with Some k => nth k y 0 | None => nth j s 0 end.
Proof.
  intros s vi y j L. unfold spread.
  set (g := fun j => match place j vi with Some k => nth k y 0 | None => nth j s 0 end).
  rewrite nth_indep with (d' := g 0%nat) by (rewrite map_length, seq_length; auto).
  rewrite (map_nth g), seq_nth by auto. reflexivity.
Qed.

(** ** The shape of the full point is kept: the start with the entries of [vi]
    overwritten *)

Definition based (start : pt) (vi : list nat) (xf : pt) : Prop :=
  length xf = length start /\
  forall j, ~ In j vi -> nth j xf 0 = nth j start 0.

Lemma place_In : forall j vi k, place j vi = Some k -> In j vi.
Proof.
  induction vi as [|a vi IH]; simpl; intros k E; [discriminate|].
  destruct (Nat.eqb_spec a j); [auto|].
  destruct (place j vi); [right; eauto|discriminate].
Qed.

Lemma place_Some : forall j vi, In j vi -> exists k, place j vi = Some k.
Proof.
  induction vi as [|a vi IH]; simpl; [tauto|]. intros I.
  destruct (Nat.eqb_spec a j); [eauto|]. destruct I as [|I]; [contradiction|].
  destruct (IH I) as [k ->]. eauto.
Qed.

Lemma write_spread : forall start vi y xf,
  NoDup vi -> (forall j, In j vi -> (j < length start)%nat) -> (length vi <= length y)%nat ->
  based start vi xf -> write vi y xf = spread start vi y.
Proof.
  intros start vi y xf ND B L [E N]. apply nth_ext0.
  - rewrite write_length, spread_length. auto.
  - intros j J. rewrite write_length, E in J. rewrite spread_nth by auto.
    rewrite write_nth; auto.
    + destruct (place j vi) eqn:P; auto. apply N. intros I.
      destruct (place_Some _ _ I) as [k K]. congruence.
    + intros k K. rewrite E. auto.
Qed.

Lemma spread_based : forall start vi y, based start vi (spread start vi y).
Proof.
  intros. split; [apply spread_length|]. intros j N.
  destruct (Nat.lt_ge_cases j (length start)).
  - rewrite spread_nth by auto. rewrite place_None by auto. reflexivity.
  - rewrite nth_overflow by (rewrite spread_length; lia).
    rewrite nth_overflow by lia. reflexivity.
Qed.

Lemma used_own : forall vi con, used vi con = own vi con.
Proof.
  intros vi [i|]; simpl; auto. rewrite removelast_firstn_len.
  replace (length vi - 1)%nat with (pred (length vi)) by lia. reflexivity.
Qed.

Lemma own_length : forall vi con, (length (own vi con) <= length vi)%nat.
Proof. intros vi [i|]; simpl; auto. rewrite firstn_length. lia. Qed.

Lemma cut_last : forall x : pt, removelast x = firstn (length x - 1) x.
Proof.
  intros x. rewrite removelast_firstn_len.
  replace (length x - 1)%nat with (pred (length x)) by lia. reflexivity.
Qed.

(** ** One call *)

Section Calls.
  Variable ok : fn -> option pt -> bool.

  Lemma tm_call_at : forall t f x nw c r c' es,
    tm_call ok t f x nw c = (r, c', es) ->
    c' = (if nw && tm_shows t f then Some (tm_point t x) else c) /\
    Forall (fun v => ev_at v = c') es.
  Proof.
    intros t f x nw c r c' es E. destruct t; simpl in E.
    - unfold user_call in E. injection E as <- <- <-. simpl.
      rewrite andb_true_r. split; auto.
    - rewrite cut_last in E. unfold user_call in E. simpl.
      destruct f as [| | | | |i|i]; simpl in E; try (destruct i as [|i]);
        simpl; rewrite ?andb_false_r, ?andb_true_r;
        try (injection E as <- <- <-; split; auto; fail).
      match type of E with (if ?b then _ else _) = _ => destruct b end;
        injection E as <- <- <-; split; auto.
  Qed.

  Definition keeps (s : tn) (start xf : pt) : Prop :=
    (fix go s := match s with
                 | FP s _ => go s
                 | Str _ vi con => based start (own vi con) xf
                 | _ => True
                 end) s.

  Lemma keeps_start : forall s start, keeps s start start.
  Proof. induction s; simpl; intros; auto. split; auto. Qed.

  Lemma shows_FG : forall s, shows s F = true -> shows s G = true.
  Proof. induction s; simpl; try (destruct t; simpl; auto; fail); auto. discriminate. Qed.
  Lemma shows_gradF : forall s, shows s GradF = true -> shows s Jac = true.
  Proof. induction s; simpl; try (destruct t; simpl; auto; fail); auto. discriminate. Qed.

  Definition after (s : tn) (start : pt) (f : fn) (x : pt) (nw : bool) (c : option pt) :=
    if nw && shows s f then Some (user_point s start x) else c.

  Lemma tn_call_at : forall s start f x nw w r w' es,
    shaped s start x -> keeps s start (xfull w) ->
    tn_call ok s f x nw w = (r, w', es) ->
    cache w' = after s start f x nw (cache w) /\
    Forall (fun v => ev_at v = cache w') es /\ keeps s start (xfull w').
  Proof.
    unfold after.
    induction s as [t|t lin morig|s IH cut|t vi con];
      intros start f x nw w r w' es SH K E; simpl in SH, K.
    - simpl in E. destruct (tm_call ok t f x nw (cache w)) as [[r1 c1] e1] eqn:C.
      simpl in E. injection E as <- <- <-. simpl.
      destruct (tm_call_at _ _ _ _ _ C) as [-> A]. auto.
    - assert (L : forall r w' es,
        lift3 (tm_call ok t f x nw (cache w)) (xfull w) = (r, w', es) ->
        cache w' = (if nw && tm_shows t f then Some (tm_point t x) else cache w) /\
        Forall (fun v => ev_at v = cache w') es).
      { intros r0 w0 es0 E0. destruct (tm_call ok t f x nw (cache w)) as [[r1 c1] e1] eqn:C.
        simpl in E0. injection E0 as <- <- <-. simpl. apply (tm_call_at _ _ _ _ _ C). }
      assert (L2 : forall r w' es, f = F \/ f = GradF ->
        (if lin then
              if nw then
                let '(_, c, e) := tm_call ok t f x nw (cache w) in
                (true, St c (xfull w), e)
              else (true, w, [])
            else lift3 (tm_call ok t f x nw (cache w)) (xfull w)) = (r, w', es) ->
        cache w' = (if nw && tm_shows t f then Some (tm_point t x) else cache w) /\
        Forall (fun v => ev_at v = cache w') es).
      { intros r0 w0 es0 _ E0. destruct lin; [|apply (L _ _ _ E0)].
        destruct nw; [|injection E0 as <- <- <-; simpl; auto].
        destruct (tm_call ok t f x true (cache w)) as [[r1 c1] e1] eqn:C.
        injection E0 as <- <- <-. simpl. apply (tm_call_at _ _ _ _ _ C). }
      cbn [shows user_point].
      destruct f as [| | | | |i|i]; cbn [tn_call] in E;
        try (destruct (L2 _ _ _ (or_introl eq_refl) E); simpl; auto; fail);
        try (destruct (L2 _ _ _ (or_intror eq_refl) E); simpl; auto; fail);
        try (destruct (L _ _ _ E); simpl; auto; fail).
      + destruct (i <? morig)%nat; simpl.
        * destruct (L _ _ _ E); simpl; auto.
        * injection E as <- <- <-. rewrite andb_false_r. simpl; auto.
      + destruct (i <? morig)%nat; simpl.
        * destruct (L _ _ _ E); simpl; auto.
        * injection E as <- <- <-. rewrite andb_false_r. simpl; auto.
    - cbn [user_point]. 
      destruct f as [| | | | |i|i]; cbn [tn_call] in E; cbn [shows];
        try (apply (IH _ _ _ _ _ _ _ _ SH K E); fail);
        try (injection E as <- <- <-; rewrite andb_false_r; simpl; auto; fail).
      + destruct (tn_call ok s G x nw w) as [[r1 w1] e1] eqn:C1.
        destruct (IH _ _ _ _ _ _ _ _ SH K C1) as [A1 [B1 K1]].
        destruct cut; [|injection E as <- <- <-; auto].
        destruct (tn_call ok s F x nw w1) as [[r2 w2] e2] eqn:C2.
        destruct (IH _ _ _ _ _ _ _ _ SH K1 C2) as [A2 [B2 K2]].
        injection E as <- <- <-.
        assert (Q1 : cache w2 = cache w1).
        { rewrite A2. destruct (nw && shows s F) eqn:X; auto.
          apply andb_true_iff in X. destruct X as [-> X]. apply shows_FG in X.
          rewrite A1, X. reflexivity. }
        split; [|split]; auto.
        * rewrite Q1. apply A1.
        * apply Forall_app. split; auto. rewrite Q1. auto.
      + destruct (tn_call ok s Jac x nw w) as [[r1 w1] e1] eqn:C1.
        destruct (IH _ _ _ _ _ _ _ _ SH K C1) as [A1 [B1 K1]].
        destruct cut; [|injection E as <- <- <-; auto].
        destruct (tn_call ok s GradF x nw w1) as [[r2 w2] e2] eqn:C2.
        destruct (IH _ _ _ _ _ _ _ _ SH K1 C2) as [A2 [B2 K2]].
        injection E as <- <- <-.
        assert (Q1 : cache w2 = cache w1).
        { rewrite A2. destruct (nw && shows s GradF) eqn:X; auto.
          apply andb_true_iff in X. destruct X as [-> X]. apply shows_gradF in X.
          rewrite A1, X. reflexivity. }
        split; [|split]; auto.
        * rewrite Q1. apply A1.
        * apply Forall_app. split; auto. rewrite Q1. auto.
    - destruct SH as [ND [B L]].
      assert (W : write (used vi con) x (xfull w) = spread start (own vi con) x).
      { rewrite used_own. apply write_spread; auto. rewrite L. apply own_length. }
      assert (KE : forall g, lift3 (tm_call ok t g (write (used vi con) x (xfull w)) nw (cache w))
           (write (used vi con) x (xfull w)) = (r, w', es) ->
         cache w' = (if nw && tm_shows t g
                     then Some (tm_point t (spread start (own vi con) x)) else cache w) /\
         Forall (fun v => ev_at v = cache w') es /\ based start (own vi con) (xfull w')).
      { intros g E0. rewrite W in E0.
        destruct (tm_call ok t g (spread start (own vi con) x) nw (cache w))
          as [[r1 c1] e1] eqn:C.
        simpl in E0. injection E0 as <- <- <-. simpl.
        destruct (tm_call_at _ _ _ _ _ C) as [-> A].
        split; [|split]; auto. apply spread_based. }
      cbn [user_point].
      destruct f as [| | | | |i|i]; cbn [tn_call] in E; cbn [shows];
        try (injection E as <- <- <-; rewrite andb_false_r; simpl; auto; fail);
        apply KE; exact E.
  Qed.

  (** ** A session *)

  Lemma run_at : forall s start cs w,
    (forall k, In k cs -> shaped s start (c_x k)) -> keeps s start (xfull w) ->
    Forall2 (fun c e => Forall (fun v => ev_at v = c) e)
            (seen s start (cache w) cs) (fst (run ok s cs w)).
  Proof.
    intros s start. induction cs as [|k cs IH]; intros w SH K; simpl; [constructor|].
    destruct (tn_call ok s (c_fn k) (c_x k) (c_new k) w) as [[r w1] e] eqn:C.
    destruct (tn_call_at s _ _ _ _ w (SH k (or_introl eq_refl)) K C) as [A [B K1]].
    unfold after in A.
    specialize (IH w1 (fun k' I => SH k' (or_intror I)) K1).
    destruct (run ok s cs w1) as [es w2]. simpl in *.
    rewrite <- A. constructor; auto.
  Qed.

  Lemma seen_shown : forall s start cs c last,
    respects last cs -> shown_first s cs ->
    (forall x, last = Some x -> c = Some (user_point s start x)) ->
    Forall2 (fun k c => c = Some (user_point s start (c_x k))) cs (seen s start c cs).
  Proof.
    intros s start. induction cs as [|k cs IH]; intros c last R SF L; simpl; [constructor|].
    destruct R as [R1 R2]. inversion SF as [|? ? S1 S2]; subst.
    assert (X : (if c_new k && shows s (c_fn k)
                 then Some (user_point s start (c_x k)) else c)
                = Some (user_point s start (c_x k))).
    { destruct (c_new k) eqn:N; simpl.
      - rewrite S1; auto.
      - destruct R1 as [|R1]; [discriminate|]. auto. }
    rewrite X. constructor; auto. apply IH with (last := Some (c_x k)); auto.
    intros x E. injection E as <-. reflexivity.
  Qed.

  Lemma Forall2_compose : forall s start cs cc (es : list (list ev)),
    Forall2 (fun k c => c = Some (user_point s start (c_x k))) cs cc ->
    Forall2 (fun c e => Forall (fun v => ev_at v = c) e) cc es ->
    right s start cs es.
  Proof.
    intros s start cs cc es A. revert es. unfold right.
    induction A as [|k c cs cc E A IH]; intros es B; inversion B; subst; constructor; auto.
  Qed.

  Lemma run_right : forall s start cs w last,
    (forall k, In k cs -> shaped s start (c_x k)) -> keeps s start (xfull w) ->
    respects last cs -> shown_first s cs ->
    (forall x, last = Some x -> cache w = Some (user_point s start x)) ->
    right s start cs (fst (run ok s cs w)).
  Proof.
    intros s start cs w last SH K R SF L.
    eapply Forall2_compose; [|apply run_at; auto].
    eapply seen_shown; eauto.
  Qed.

  Lemma plain_shows : forall s f, plain s -> solver_fn f -> shows s f = true.
  Proof.
    induction s; simpl; intros f P X; subst; auto; try contradiction;
      destruct f; simpl in *; try contradiction; auto; apply IHs; simpl; auto.
  Qed.

  Lemma plain_shaped : forall s start x, plain s -> shaped s start x.
  Proof. induction s; simpl; intros; auto. contradiction. Qed.

  (** Always new. *)
  Lemma always_new_events : forall s f x w,
    shows s f = false -> snd (tn_call ok s f x true w) = [].
  Proof.
    induction s as [t|t lin morig|s IH cut|t vi con]; intros f x w X; simpl in X.
    - destruct t, f; try discriminate; reflexivity.
    - destruct f as [| | | | |i|i]; simpl in X; try (destruct t; discriminate).
      + destruct t; [discriminate|]. simpl. destruct lin; reflexivity.
      + destruct t; [discriminate|]. simpl. destruct lin; reflexivity.
      + simpl. destruct (i <? morig)%nat; [destruct t; discriminate|reflexivity].
      + simpl. destruct (i <? morig)%nat; [destruct t; discriminate|reflexivity].
    - destruct f as [| | | | |i|i]; cbn [tn_call]; try (apply IH; auto; fail);
        try reflexivity.
      + specialize (IH G x w X) as E1.
        destruct (tn_call ok s G x true w) as [[r1 w1] e1]. simpl in E1. subst e1.
        destruct cut; [|reflexivity].
        assert (X2 : shows s F = false).
        { destruct (shows s F) eqn:Y; auto. apply shows_FG in Y. congruence. }
        specialize (IH F x w1 X2) as E2.
        destruct (tn_call ok s F x true w1) as [[r2 w2] e2]. simpl in E2. subst. reflexivity.
      + specialize (IH Jac x w X) as E1.
        destruct (tn_call ok s Jac x true w) as [[r1 w1] e1]. simpl in E1. subst e1.
        destruct cut; [|reflexivity].
        assert (X2 : shows s GradF = false).
        { destruct (shows s GradF) eqn:Y; auto. apply shows_gradF in Y. congruence. }
        specialize (IH GradF x w1 X2) as E2.
        destruct (tn_call ok s GradF x true w1) as [[r2 w2] e2]. simpl in E2. subst. reflexivity.
    - destruct f as [| | | | |i|i]; try reflexivity; destruct t, con as [[|j]|];
        simpl in X; try discriminate; reflexivity.
  Qed.

  Lemma always_new_right : forall s start cs w,
    (forall k, In k cs -> shaped s start (c_x k)) -> keeps s start (xfull w) ->
    always_new cs -> right s start cs (fst (run ok s cs w)).
  Proof.
    intros s start. induction cs as [|k cs IH]; intros w SH K AN; simpl; [constructor|].
    inversion AN as [|? ? N AN']; subst.
    destruct (tn_call ok s (c_fn k) (c_x k) (c_new k) w) as [[r w1] e] eqn:C.
    destruct (tn_call_at s _ _ _ _ w (SH k (or_introl eq_refl)) K C) as [A [B K1]].
    specialize (IH w1 (fun k' I => SH k' (or_intror I)) K1 AN').
    destruct (run ok s cs w1) as [es w2]. simpl in *. unfold right in *.
    constructor; auto. unfold after in A. rewrite N in *. simpl in A.
    destruct (shows s (c_fn k)) eqn:X.
    - rewrite <- A. exact B.
    - apply (always_new_events s (c_fn k) (c_x k) w) in X. rewrite C in X. simpl in X. subst e.
      constructor.
  Qed.

  (** Sequences given up at the first failure. *)
  Lemma run_until_run : forall s cs w es w',
    run_until ok s cs w = (true, es, w') -> run ok s cs w = (es, w').
  Proof.
    intros s. induction cs as [|k cs IH]; simpl; intros w es w' E.
    - congruence.
    - destruct (tn_call ok s (c_fn k) (c_x k) (c_new k) w) as [[b w1] e].
      destruct b; [|discriminate].
      destruct (run_until ok s cs w1) as [[b2 es2] w2] eqn:R.
      injection E as -> <- <-. rewrite (IH _ _ _ R). reflexivity.
  Qed.
End Calls.

(** ** The functions evaluated *)

Lemma tm_needs_met : forall t f x nw c,
  incl (tm_needs t f) (map ev_fn (snd (tm_call (fun _ _ => true) t f x nw c))) /\
  fst (fst (tm_call (fun _ _ => true) t f x nw c)) = true.
Proof.
  intros t f x nw c. destruct t; simpl; [split; auto; apply incl_refl|].
  destruct f as [| | | | |[|i]|[|i]]; simpl; split; auto; apply incl_refl.
Qed.

Lemma needs_met : forall s f x nw w,
  incl (needs s f) (map ev_fn (snd (tn_call (fun _ _ => true) s f x nw w))).
Proof.
  assert (L : forall t f x nw c xf,
    incl (tm_needs t f) (map ev_fn (snd (lift3 (tm_call (fun _ _ => true) t f x nw c) xf)))).
  { intros. destruct (tm_needs_met t f x nw c) as [A _].
    destruct (tm_call (fun _ _ => true) t f x nw c) as [[? ?] ?]. exact A. }
  induction s as [t|t lin morig|s IH cut|t vi con]; intros f x nw w.
  - apply L.
  - destruct f as [| | | | |i|i]; cbn [needs tn_call]; try apply L.
    + destruct lin; [intros ? []|apply L].
    + destruct lin; [intros ? []|apply L].
    + destruct (i <? morig)%nat; [apply L|intros ? []].
    + destruct (i <? morig)%nat; [apply L|intros ? []].
  - destruct f as [| | | | |i|i]; cbn [needs tn_call]; try apply IH; try (intros ? []; fail).
    + specialize (IH G x nw w) as I1.
      destruct (tn_call (fun _ _ => true) s G x nw w) as [[r1 w1] e1].
      destruct cut; [|rewrite app_nil_r; exact I1].
      specialize (IH F x nw w1) as I2.
      destruct (tn_call (fun _ _ => true) s F x nw w1) as [[r2 w2] e2].
      cbn [snd] in *. rewrite map_app. apply incl_app; [apply incl_appl|apply incl_appr]; auto.
    + specialize (IH Jac x nw w) as I1.
      destruct (tn_call (fun _ _ => true) s Jac x nw w) as [[r1 w1] e1].
      destruct cut; [|rewrite app_nil_r; exact I1].
      specialize (IH GradF x nw w1) as I2.
      destruct (tn_call (fun _ _ => true) s GradF x nw w1) as [[r2 w2] e2].
      cbn [snd] in *. rewrite map_app. apply incl_app; [apply incl_appl|apply incl_appr]; auto.
  - destruct f as [| | | | |i|i]; cbn [needs tn_call]; try apply L; intros ? [].
Qed.

(** ** Announcements *)

Lemma tm_announced : forall ok t f x nw c,
  (announced (snd (tm_call ok t f x nw c)) <= (if nw then 1 else 0))%nat.
Proof.
  intros ok t f x nw c. unfold announced.
  destruct t; simpl; [destruct nw; simpl; lia|].
  destruct f as [| | | | |[|i]|[|i]]; unfold user_call; simpl;
    try destruct (ok F _); destruct nw; simpl; lia.
Qed.

Lemma tn_announced : forall ok s f x nw w, no_cutoff s ->
  (announced (snd (tn_call ok s f x nw w)) <= (if nw then 1 else 0))%nat.
Proof.
  intros ok.
  assert (L : forall t f x nw c xf,
    (announced (snd (lift3 (tm_call ok t f x nw c) xf)) <= (if nw then 1 else 0))%nat).
  { intros. pose proof (tm_announced ok t f x nw c) as A.
    destruct (tm_call ok t f x nw c) as [[? ?] ?]. exact A. }
  assert (Z : forall nw : bool, (announced [] <= (if nw then 1 else 0))%nat)
    by (intros; unfold announced; simpl; destruct nw; lia).
  induction s as [t|t lin morig|s IH cut|t vi con]; intros f x nw w NC.
  - apply L.
  - assert (L2 : forall g, (announced (snd (if lin then
              if nw then
                let '(_, c, e) := tm_call ok t g x nw (cache w) in
                (true, St c (xfull w), e)
              else (true, w, [])
            else lift3 (tm_call ok t g x nw (cache w)) (xfull w)))
         <= (if nw then 1 else 0))%nat).
    { intros g. destruct lin; [|apply L]. destruct nw; [|apply (Z false)].
      pose proof (tm_announced ok t g x true (cache w)) as A.
      destruct (tm_call ok t g x true (cache w)) as [[? ?] ?]. exact A. }
    destruct f as [| | | | |i|i]; cbn [tn_call]; try apply L2; try apply L;
      destruct (i <? morig)%nat; try apply L; apply Z.
  - destruct NC as [-> NC].
    destruct f as [| | | | |i|i]; cbn [tn_call]; try (apply IH; auto; fail); try apply Z.
    + specialize (IH G x nw w NC).
      destruct (tn_call ok s G x nw w) as [[? ?] ?]. exact IH.
    + specialize (IH Jac x nw w NC).
      destruct (tn_call ok s Jac x nw w) as [[? ?] ?]. exact IH.
  - destruct f as [| | | | |i|i]; cbn [tn_call]; try apply L; apply Z.
Qed.
