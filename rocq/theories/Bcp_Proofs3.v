(** Proofs about the parallel driver: decisions at a node. *)
From Coq Require Import String Sorted.
From Verif Require Import Base Arr Bcp_Model Bcp_Spec Bcp_Proofs Bcp_Proofs2.
#[local] Open Scope Q_scope.

Ltac bok H a E := apply bind_ok in H; destruct H as (a & E & H).

(** ** The choice, for any table *)
Section Choice.
Variable over : Q -> bool.
Variable maxmin nodeval : Q.
Variable pref : nat -> option bool.
Variable high ndebug : bool.
Variable tab : list sbres.
Variable sol : list Q.
Lemma fathomable_iff d : fathomable over d = true <-> hopeless over d.
Proof. unfold fathomable, hopeless. rewrite orb_true_iff, andb_true_iff. reflexivity. Qed.
Lemma evaluated_iff i : evaluated (nth i tab dres) = true <-> touched tab i.
Proof. unfold evaluated, touched. apply orb_true_iff. Qed.
Lemma get_ok o (d : side) : get o = Ok d -> o = Some d.
Proof. destruct o; intros H; [injection H as <-; reflexivity|discriminate]. Qed.
Definition both (i : nat) : Prop := r_e0 (nth i tab dres) = true /\ r_e1 (nth i tab dres) = true.

Lemma fathom_true inf : fathom_scan ndebug over tab inf = Ok true ->
  exists i d0 d1, In i inf /\ sides tab i d0 d1 /\ hopeless over d0 /\ hopeless over d1 /\ (ndebug = false -> both i).
Proof.
  induction inf as [|i inf IH]; intros H; cbn [fathom_scan] in H; [discriminate|].
  assert (R : fathom_scan ndebug over tab inf = Ok true -> exists j d0 d1, In j (i :: inf) /\ sides tab j d0 d1 /\ hopeless over d0 /\ hopeless over d1 /\ (ndebug = false -> both j)).
  { intros G. destruct (IH G) as (j & d0 & d1 & A & B). exists j, d0, d1. split; [right; exact A|exact B]. }
  destruct (evaluated (nth i tab dres)) eqn:E; [|exact (R H)].
  bok H u Eu. bok H d0 E0. destruct (fathomable over d0) eqn:F0; [|exact (R H)]. bok H d1 E1.
  destruct (fathomable over d1) eqn:F1; [|exact (R H)]. apply get_ok in E0. apply get_ok in E1.
  exists i, d0, d1. split; [left; reflexivity|]. split; [split; [apply evaluated_iff, E|auto]|].
  split; [apply fathomable_iff, F0|]. split; [apply fathomable_iff, F1|]. intros N. rewrite N in Eu. cbn [orb] in Eu.
  unfold chk in Eu. destruct (_ && _) eqn:G; [|discriminate]. apply andb_true_iff in G. exact G.
Qed.
Lemma fathom_false inf : fathom_scan ndebug over tab inf = Ok false ->
  forall i, In i inf -> (forall d0 d1, sides tab i d0 d1 -> ~ (hopeless over d0 /\ hopeless over d1)) /\
    (ndebug = false -> touched tab i -> both i).
Proof.
  induction inf as [|j inf IH]; intros H i I; [destruct I|]. cbn [fathom_scan] in H.
  destruct (evaluated (nth j tab dres)) eqn:E.
  - bok H u Eu. bok H e0 E0. apply get_ok in E0.
    assert (R : fathom_scan ndebug over tab inf = Ok false /\ (forall d0 d1, sides tab j d0 d1 -> ~ (hopeless over d0 /\ hopeless over d1))).
    { destruct (fathomable over e0) eqn:F0.
      - bok H e1 E1. apply get_ok in E1. destruct (fathomable over e1) eqn:F1; [discriminate|]. split; [exact H|].
        intros d0 d1 (_ & S0 & S1) [_ H1]. rewrite E1 in S1. injection S1 as <-. apply fathomable_iff in H1. congruence.
      - split; [exact H|]. intros d0 d1 (_ & S0 & S1) [H1 _]. rewrite E0 in S0. injection S0 as <-. apply fathomable_iff in H1. congruence. }
    destruct R as [R1 R2]. destruct I as [<-|I]; [|exact (IH R1 i I)]. split; [exact R2|].
    intros N _. rewrite N in Eu. cbn [orb] in Eu.
    unfold chk in Eu. destruct (_ && _) eqn:G; [|discriminate]. apply andb_true_iff in G. exact G.
  - destruct I as [<-|I]; [|exact (IH H i I)].
    assert (NT : ~ touched tab j) by (rewrite <- evaluated_iff; congruence). split.
    + intros d0 d1 (S & _). contradiction.
    + intros _ T. contradiction.
Qed.
Lemma fix_inf_spec inf : forall l u b lu, fix_inf sol over tab inf l u = Ok (b, lu) ->
  (forall i, In i inf -> touched tab i -> exists d0 d1, sides tab i d0 d1) /\
  (b = true <-> exists i d0 d1, In i inf /\ sides tab i d0 d1 /\ (hopeless over d0 \/ hopeless over d1)).
Proof.
  induction inf as [|j inf IH]; intros l u b lu H; cbn [fix_inf] in H.
  - injection H as <- <-. split; [intros i []|]. split; [discriminate|intros (i & d0 & d1 & [] & _)].
  - destruct (evaluated (nth j tab dres)) eqn:E.
    + bok H e0 E0. bok H e1 E1. apply get_ok in E0. apply get_ok in E1. bok H r Er. destruct r as [b' lu']. injection H as <- <-.
      destruct (IH _ _ _ _ Er) as [A B]. assert (Sj : sides tab j e0 e1) by (split; [apply evaluated_iff, E|auto]). split.
      * intros i [<-|I] T; [exists e0, e1; exact Sj|apply A; assumption].
      * rewrite !orb_true_iff, !fathomable_iff, B. split.
        -- intros [G|(i & d0 & d1 & I & G)]; [exists j, e0, e1; split; [left; reflexivity|auto]|exists i, d0, d1; split; [right; exact I|exact G]].
        -- intros (i & d0 & d1 & [<-|I] & G & K); [left|right; exists i, d0, d1; auto].
           destruct G as (_ & G0 & G1). rewrite E0 in G0. rewrite E1 in G1. injection G0 as <-. injection G1 as <-. exact K.
    + destruct (IH _ _ _ _ H) as [A B]. assert (NT : ~ touched tab j) by (rewrite <- evaluated_iff; congruence). split.
      * intros i [<-|I] T; [contradiction|apply A; assumption].
      * rewrite B. split.
        -- intros (i & d0 & d1 & I & G). exists i, d0, d1. split; [right; exact I|exact G].
        -- intros (i & d0 & d1 & [<-|I] & G & K); [destruct G as (G & _); contradiction|exists i, d0, d1; auto].
Qed.
Lemma score_mean d0 d1 v : mean maxmin nodeval d0 d1 v <-> v == score maxmin nodeval d0 d1.
Proof.
  unfold mean, score, qmin, qmax. set (a := d_val d0 - nodeval). set (b := d_val d1 - nodeval).
  destruct (Qltb a b) eqn:E1.
  - apply Qltb_lt in E1. assert (Qltb b a = false) as -> by (apply Qltb_ge; lra). split.
    + intros [[_ ->]|[G _]]; [reflexivity|lra].
    + intros ->. left. split; [lra|reflexivity].
  - apply Qltb_ge in E1.
    assert (M : (if Qltb b a then a else b) == a).
    { destruct (Qltb b a) eqn:E2; [reflexivity|]. apply Qltb_ge in E2. lra. }
    rewrite M. split.
    + intros [[G ->]|[_ ->]]; [|reflexivity]. assert (X : a == b) by lra. rewrite X. ring.
    + intros ->. right. split; [exact E1|reflexivity].
Qed.
Definition way_ok i d0 d1 (w : bool) : Prop :=
  match pref i with Some p => w = p | None => w = true <-> d_val d1 <= d_val d0 end.
Definition summary (pre : list nat) (best : option (nat * bool * Q)) : Prop :=
  match best with
  | None => forall j, (j < List.length pre)%nat -> ~ exists d0 d1, trusted tab (nth j pre 0%nat) d0 d1
  | Some (k, w, v) => (k < List.length pre)%nat /\ exists d0 d1, trusted tab (nth k pre 0%nat) d0 d1 /\ v = score maxmin nodeval d0 d1 /\
      way_ok (nth k pre 0%nat) d0 d1 w /\
      forall j e0 e1, (j < List.length pre)%nat -> trusted tab (nth j pre 0%nat) e0 e1 ->
        no_worse high v (score maxmin nodeval e0 e1) /\ ((j < k)%nat -> preferred high v (score maxmin nodeval e0 e1))
  end.
Lemma nth_snoc_old {A} (l : list A) a j d : (j < List.length l)%nat -> nth j (l ++ [a]) d = nth j l d.
Proof. intros H. apply app_nth1. exact H. Qed.
Lemma nth_snoc_new {A} (l : list A) a d : nth (List.length l) (l ++ [a]) d = a.
Proof. rewrite app_nth2 by lia. rewrite Nat.sub_diag. reflexivity. Qed.
Lemma summary_skip pre i best : summary pre best -> (~ exists d0 d1, trusted tab i d0 d1) -> summary (pre ++ [i]) best.
Proof.
  intros S N. destruct best as [[[k w] v]|].
  - destruct S as (L & d0 & d1 & T & V & Wy & All). cbn [summary]. rewrite app_length. cbn [List.length]. split; [lia|].
    exists d0, d1. rewrite nth_snoc_old by exact L. split; [exact T|]. split; [exact V|]. split; [exact Wy|].
    intros j e0 e1 Lj Tj. destruct (Nat.eq_dec j (List.length pre)) as [->|Ne].
    + rewrite nth_snoc_new in Tj. exfalso. apply N. eauto.
    + rewrite nth_snoc_old in Tj by lia. apply All; [lia|exact Tj].
  - cbn [summary] in *. intros j Lj. rewrite app_length in Lj. cbn [List.length] in Lj.
    destruct (Nat.eq_dec j (List.length pre)) as [->|Ne].
    + rewrite nth_snoc_new. exact N.
    + rewrite nth_snoc_old by lia. apply S. lia.
Qed.
Lemma trusted_fun i d0 d1 e0 e1 : trusted tab i d0 d1 -> trusted tab i e0 e1 -> d0 = e0 /\ d1 = e1.
Proof. intros (_ & A & B & _) (_ & C & D & _). rewrite A in C. rewrite B in D. split; congruence. Qed.
Lemma pick_spec inf : forall pre best p, summary pre best -> pick maxmin nodeval pref high tab inf (List.length pre) best = Ok p ->
  summary (pre ++ inf) p.
Proof.
  induction inf as [|i inf IH]; intros pre best p Sm H; cbn [pick] in H.
  - injection H as <-. rewrite app_nil_r. exact Sm.
  - replace (pre ++ i :: inf) with ((pre ++ [i]) ++ inf) by (rewrite <- app_assoc; reflexivity).
    assert (LS : S (List.length pre) = List.length (pre ++ [i])) by (rewrite app_length; simpl; lia). rewrite LS in H.
    destruct (evaluated (nth i tab dres)) eqn:E.
    + bok H d0 E0. bok H d1 E1. apply get_ok in E0. apply get_ok in E1.
      destruct (ab (d_st d0) || ab (d_st d1)) eqn:A.
      * apply (IH _ _ _ (summary_skip _ _ _ Sm ltac:(intros (e0 & e1 & T); destruct T as (_ & T0 & T1 & T2 & T3);
          rewrite E0 in T0; rewrite E1 in T1; injection T0 as <-; injection T1 as <-; rewrite T2, T3 in A; discriminate)) H).
      * apply orb_false_iff in A. destruct A as [A0 A1].
        assert (T : trusted tab i d0 d1) by (split; [apply evaluated_iff, E|auto]).
        set (v := score maxmin nodeval d0 d1) in *.
        destruct (better high v best) eqn:Bt; apply (fun S' => IH _ _ _ S' H); clear H IH.
        -- cbn [summary]. rewrite <- LS. split; [lia|]. exists d0, d1. rewrite nth_snoc_new. split; [exact T|]. split; [reflexivity|]. split.
           { unfold way_ok. destruct (pref i) as [w|]; [reflexivity|]. rewrite negb_true_iff, Qltb_ge. split; intros G; lra. }
           intros j e0 e1 Lj Tj. destruct (Nat.eq_dec j (List.length pre)) as [->|Ne].
           { rewrite nth_snoc_new in Tj. destruct (trusted_fun _ _ _ _ _ T Tj) as [<- <-]. split; [|lia]. unfold no_worse. destruct high; apply Qle_refl. }
           rewrite nth_snoc_old in Tj by lia. destruct best as [[[k w] v0]|].
           { destruct Sm as (_ & f0 & f1 & _ & _ & _ & All). destruct (All j e0 e1 ltac:(lia) Tj) as [NW _].
             unfold better in Bt. unfold no_worse, preferred in *. destruct high; apply Qltb_lt in Bt; (split; [lra|intros _; lra]). }
           { exfalso. apply (Sm j); [lia|eauto]. }
        -- destruct best as [[[k w] v0]|]; [|discriminate]. destruct Sm as (L & f0 & f1 & T' & V & Wy & All).
           cbn [summary]. rewrite <- LS. split; [lia|]. exists f0, f1. rewrite nth_snoc_old by exact L.
           split; [exact T'|]. split; [exact V|]. split; [exact Wy|]. intros j e0 e1 Lj Tj.
           destruct (Nat.eq_dec j (List.length pre)) as [->|Ne].
           { rewrite nth_snoc_new in Tj. destruct (trusted_fun _ _ _ _ _ T Tj) as [<- <-]. fold v. split; [|lia].
             unfold better in Bt. unfold no_worse. destruct high; apply Qltb_ge in Bt; exact Bt. }
           rewrite nth_snoc_old in Tj by lia. apply All; [lia|exact Tj].
    + apply (IH _ _ _ (summary_skip _ _ _ Sm ltac:(intros (e0 & e1 & T); destruct T as (T & _); apply (proj2 (evaluated_iff i)) in T; rewrite E in T; discriminate T)) H).
Qed.
Lemma first_open_spec inf : forall k, match first_open tab inf k with
  | Some m => exists j, m = (k + j)%nat /\ first_such (fun i => ~ touched tab i) inf j
  | None => none_such (fun i => ~ touched tab i) inf
  end.
Proof.
  induction inf as [|i inf IH]; intros k; cbn [first_open]; [intros i []|].
  destruct (evaluated (nth i tab dres)) eqn:E.
  - apply evaluated_iff in E. specialize (IH (S k)). destruct (first_open tab inf (S k)) as [m|].
    + destruct IH as (j & -> & L & P & F). exists (S j). split; [lia|]. split; [simpl; lia|]. split; [exact P|].
      intros [|j'] Lj; cbn [nth]; [intros G; contradiction|apply F; lia].
    + intros j [<-|I]; [intros G; contradiction|apply IH, I].
  - exists 0%nat. split; [lia|]. split; [simpl; lia|]. split; [cbn [nth]; rewrite <- evaluated_iff; congruence|]. intros j L. lia.
Qed.
Lemma first_half_spec inf : forall k best m, first_half tab inf k best = Ok m ->
  (exists j, m = (k + j)%nat /\ first_such (half_done tab) inf j) \/
  (none_such (half_done tab) inf /\ m = match inf with [] => best | _ => (k + (List.length inf - 1))%nat end).
Proof.
  induction inf as [|i inf IH]; intros k best m H; cbn [first_half] in H.
  - injection H as <-. right. split; [intros i []|reflexivity].
  - bok H d0 E0. apply get_ok in E0. destruct (ab (d_st d0)) eqn:A0; cbn [negb] in H.
    + bok H d1 E1. apply get_ok in E1. destruct (ab (d_st d1)) eqn:A1; cbn [negb] in H.
      * assert (NH : ~ half_done tab i).
        { intros (d & [G|G] & A); rewrite G in *; [injection E0 as <-|injection E1 as <-]; congruence. }
        destruct (IH _ _ _ H) as [(j & -> & L & P & F)|[N Em]].
        -- left. exists (S j). split; [lia|]. split; [simpl; lia|]. split; [exact P|].
           intros [|j'] Lj; cbn [nth]; [exact NH|apply F; lia].
        -- right. split; [intros j [<-|I]; [exact NH|apply N, I]|]. destruct inf; simpl in *; lia.
      * injection H as <-. left. exists 0%nat. split; [lia|]. split; [simpl; lia|]. split; [exists d1; auto|]. intros j L. lia.
    + injection H as <-. left. exists 0%nat. split; [lia|]. split; [simpl; lia|]. split; [exists d0; auto|]. intros j L. lia.
Qed.
Lemma decision_ok inf feas l u d lu : inf <> [] ->
  process_SB_results sol ndebug over maxmin nodeval pref high inf feas tab l u = Ok (d, lu) ->
  C226_spec over maxmin nodeval pref high tab inf d.
Proof.
  intros NE H. unfold process_SB_results in H. bok H f Ef. destruct f.
  { injection H as <- <-. destruct (fathom_true _ Ef) as (i & d0 & d1 & A & B & C1 & C2 & _). exists i, d0, d1. auto. }
  bok H r Er. destruct r as [lost [l1 u1]]. bok H r' Er'. destruct r' as [moved [l2 u2]].
  destruct (fix_inf_spec _ _ _ _ _ Er) as [_ Lost]. pose proof (fathom_false _ Ef) as NF. destruct lost.
  { injection H as <- <-. cbn [C226_spec]. split; [intros i d0 d1 I; apply (NF i I)|apply Lost; reflexivity]. }
  assert (NL : forall i d0 d1, In i inf -> sides tab i d0 d1 -> ~ (hopeless over d0 \/ hopeless over d1)).
  { intros i d0 d1 I G K. assert (false = true); [|discriminate]. apply Lost. exists i, d0, d1. auto. }
  bok H p Ep. pose proof (pick_spec inf [] None p ltac:(intros j Lj; simpl in Lj; lia) Ep) as Sm. cbn [app] in Sm. destruct p as [[[k w] v]|].
  - injection H as <- <-. cbn [C226_spec]. split; [exact NL|]. left. destruct Sm as (L & d0 & d1 & T & V & Wy & All).
    split; [exact L|]. exists d0, d1, v. split; [exact T|]. split; [apply score_mean; rewrite V; reflexivity|]. split; [exact Wy|].
    intros j e0 e1 v' Lj Tj Mv. apply score_mean in Mv. destruct (All j e0 e1 Lj Tj) as [A B]. unfold no_worse, preferred in *.
    destruct high; (split; [|intros Lk; specialize (B Lk)]); lra.
  - assert (NT : none_such (fun i => exists d0 d1, trusted tab i d0 d1) inf).
    { intros i I. apply (In_nth _ _ 0%nat) in I. destruct I as (j & Lj & <-). apply Sm. exact Lj. }
    pose proof (first_open_spec inf 0) as FO. destruct (first_open tab inf 0) as [k|].
    + injection H as <- <-. cbn [C226_spec]. split; [exact NL|]. right. split; [exact NT|]. split; [reflexivity|]. left.
      destruct FO as (j & -> & F). exact F.
    + bok H k Ek. injection H as <- <-. cbn [C226_spec]. split; [exact NL|]. right. split; [exact NT|]. split; [reflexivity|]. right.
      split; [exact FO|]. destruct (first_half_spec _ _ _ _ Ek) as [(j & -> & F)|[N E]]; [left; exact F|right].
      split; [exact N|]. destruct inf; [congruence|exact E].
Qed.
End Choice.

(** ** Boxes *)
Lemma within_lo l u x c v : within l u x -> v <= nth c x 0 -> within (put c v l) u x.
Proof.
  intros [A B] H. split; [rewrite put_length; exact A|]. intros j Lj. rewrite put_length in Lj. specialize (B j Lj).
  destruct (Nat.eq_dec c j) as [->|N]; [rewrite put_nth, Nat.eqb_refl by exact Lj; lra|rewrite nth_put_other by exact N; exact B].
Qed.
Lemma within_up l u x c v : within l u x -> nth c x 0 <= v -> within l (put c v u) x.
Proof.
  intros [A B] H. split; [exact A|]. intros j Lj. specialize (B j Lj).
  destruct (Nat.eq_dec c j) as [->|N]; [|rewrite nth_put_other by exact N; exact B].
  destruct (Nat.lt_ge_cases j (List.length u)) as [G|G]; [rewrite put_nth, Nat.eqb_refl by exact G; lra|rewrite put_nth_out by exact G; exact B].
Qed.
Definition ib (s : site) i w : branch := {| b_up := w; b_obj := i; b_col := col s i; b_val := value s i; b_bd := if w then cei (value s i) else flo (value s i) |}.
Definition fb (s : site) i w : branch := {| b_up := w; b_obj := i; b_col := col s i; b_val := value s i; b_bd := if w then cei (value s i + half) else flo (value s i - half) |}.
Definition res (s : site) (b : branch) : side := sside b (answer (x_solve s) (x_lo s) (x_up s) b).

Section Sound.
Variable s : site.
Hypothesis W : well_formed s.
Variable c : cand.
Hypothesis C : candidates s = Ok c.
Variable n : nat.
Notation T := (one_process s n c).
Lemma branch_eq (b : branch) w i v bd : b_up b = w -> b_obj b = i -> b_col b = col s i -> b_val b = v -> b_bd b = bd ->
  b = {| b_up := w; b_obj := i; b_col := col s i; b_val := v; b_bd := bd |}.
Proof. destruct b; cbn. congruence. Qed.
Lemma in_first b : In b (firstn n (branches s c)) -> In b (branches s c).
Proof. intros I. rewrite <- (firstn_skipn n (branches s c)). apply in_app_iff. left. exact I. Qed.
Lemma T_inf i w : In i (c_inf c) -> fst (gs w (nth i T dres)) = true -> snd (gs w (nth i T dres)) = Some (res s (ib s i w)).
Proof.
  intros I E. destruct (lists_ok s W c C) as (_ & _ & LI & LF). pose proof (proj1 (LI i) I) as [L Fr].
  destruct (one_get s W c C n i w L E) as (b & Ib & Ob & Ub & G). rewrite G. f_equal. unfold res.
  apply in_first, in_branches in Ib. destruct Ib as [(j & J & K)|(j & J & K)].
  - apply ibr_in in K. destruct K as (K1 & K2 & K3 & K4). assert (Hj : j = i) by congruence. rewrite Hj in *. clear j Hj.
    assert (b = ib s i w) as -> by (apply branch_eq; auto; rewrite K4, Ub; reflexivity). reflexivity.
  - apply fbr_in in K. destruct K as (K1 & _). assert (H : j = i) by congruence. rewrite H in J. apply LF in J. destruct J as [_ [J _]]. destruct (J Fr).
Qed.
Lemma T_feas i w : In i (c_feas c) -> fst (gs w (nth i T dres)) = true -> snd (gs w (nth i T dres)) = Some (res s (fb s i w)).
Proof.
  intros I E. destruct (lists_ok s W c C) as (_ & _ & LI & LF). pose proof (proj1 (LF i) I) as [L [Fr _]].
  destruct (one_get s W c C n i w L E) as (b & Ib & Ob & Ub & G). rewrite G. f_equal. unfold res.
  apply in_first, in_branches in Ib. destruct Ib as [(j & J & K)|(j & J & K)].
  - apply ibr_in in K. destruct K as (K1 & _). assert (H : j = i) by congruence. rewrite H in J. apply LI in J. destruct J as [_ J]. destruct (Fr J).
  - apply fbr_in in K. destruct K as (K1 & K2 & K3 & K4). assert (Hj : j = i) by congruence. rewrite Hj in *. clear j Hj.
    assert (b = fb s i w) as -> by (apply branch_eq; auto; rewrite Ub in K4; destruct w; apply K4). reflexivity.
Qed.
Section Point.
Variable F : list Q -> Prop.
Variable f : list Q -> Q.
Hypothesis TR : truthful s F f.
Variable x : list Q.
Hypothesis Fx : F x.
Hypothesis Wx : within (x_lo s) (x_up s) x.
Hypothesis Ox : x_over s (f x) = false.
Lemma excluded b : hopeless (x_over s) (res s b) -> ~ keeps b (nth (b_col b) x 0).
Proof.
  intros H K.
  assert (Wb : within (changed_lo (x_lo s) b) (changed_up (x_up s) b) x).
  { unfold changed_lo, changed_up, keeps in *. destruct (b_up b); [apply within_lo; assumption|apply within_up; assumption]. }
  unfold res, sside, answer in H. destruct (x_solve s (changed_lo (x_lo s) b) (changed_up (x_up s) b)) as [st v] eqn:E.
  unfold hopeless in H. cbn [fst snd d_st d_val] in H. destruct H as [H|[H1 H2]].
  - apply (tr_inf s F f TR _ _ _ _ E H x Fx Wb).
  - rewrite H1 in H2. pose proof (tr_opt s F f TR _ _ _ _ E H1 x Fx Wb) as G.
    pose proof (tr_over s F f TR _ _ G H2). congruence.
Qed.
Lemma x_split i : (i < List.length (x_objs s))%nat -> nth (col s i) x 0 <= flo (value s i) \/ cei (value s i) <= nth (col s i) x 0.
Proof.
  intros L. pose proof (tr_int s F f TR i x L Fx) as I. pose proof (flo_spec (value s i)) as A. pose proof (cei_spec (value s i)) as B.
  destruct (Qlt_le_dec (flo (value s i)) (nth (col s i) x 0)) as [G|G]; [right|left; exact G].
  apply integral_lt; [apply cei_integral|exact I|].
  destruct (Qlt_le_dec (nth (col s i) x 0) (flo (value s i) + 1)) as [G'|G']; [|lra].
  pose proof (integral_lt _ _ I (flo_integral (value s i)) G'). lra.
Qed.
Definition allboth : Prop := forall i, In i (c_inf c) -> touched T i -> both T i.
Lemma inf_sides i d0 d1 : In i (c_inf c) -> both T i -> sides T i d0 d1 -> d0 = res s (ib s i false) /\ d1 = res s (ib s i true).
Proof.
  intros I [B0 B1] (_ & S0 & S1). pose proof (T_inf i false I B0) as G0. pose proof (T_inf i true I B1) as G1.
  cbn [gs snd] in G0, G1. rewrite S0 in G0. rewrite S1 in G1. split; congruence.
Qed.
Lemma fix_inf_keep inf : (forall i, In i inf -> In i (c_inf c)) -> (forall i, In i inf -> touched T i -> both T i) ->
  forall l u b l' u', fix_inf (x_sol s) (x_over s) T inf l u = Ok (b, (l', u')) -> within l u x -> within l' u' x.
Proof.
  intros Sub AB. induction inf as [|i inf IH]; intros l u b l' u' H Wi; cbn [fix_inf] in H.
  { injection H as <- <- <-. exact Wi. }
  assert (Sub' : forall j, In j inf -> In j (c_inf c)) by (intros j J; apply Sub; right; exact J).
  assert (AB' : forall j, In j inf -> touched T j -> both T j) by (intros j J; apply AB; right; exact J).
  specialize (IH Sub' AB'). destruct (evaluated (nth i T dres)) eqn:E; [|exact (IH _ _ _ _ _ H Wi)].
  bok H d0 E0. bok H d1 E1. bok H r Er. destruct r as [b' [l2 u2]]. injection H as <- <- <-.
  apply get_ok in E0. apply get_ok in E1. apply (IH _ _ _ _ _ Er). clear Er IH.
  assert (Ii : In i (c_inf c)) by (apply Sub; left; reflexivity).
  assert (Ti : touched T i) by (apply evaluated_iff, E).
  destruct (lists_ok s W c C) as (_ & _ & LI & _). pose proof (proj1 (LI i) Ii) as [L _].
  destruct (inf_sides i d0 d1 Ii (AB i (or_introl eq_refl) Ti) (conj Ti (conj E0 E1))) as [-> ->].
  rewrite (one_col s W c n i L). change (nth (col s i) (x_sol s) 0) with (value s i).
  pose proof (x_split i L) as Sp.
  destruct (fathomable (x_over s) (res s (ib s i true))) eqn:F1.
  - apply fathomable_iff, excluded in F1. unfold keeps in F1. cbn [ib b_up b_bd b_col] in F1.
    destruct (fathomable (x_over s) (res s (ib s i false))) eqn:F0.
    + apply fathomable_iff, excluded in F0. unfold keeps in F0. cbn [ib b_up b_bd b_col] in F0. tauto.
    + apply within_up; [exact Wi|]. tauto.
  - destruct (fathomable (x_over s) (res s (ib s i false))) eqn:F0; [|exact Wi].
    apply fathomable_iff, excluded in F0. unfold keeps in F0. cbn [ib b_up b_bd b_col] in F0. apply within_lo; [exact Wi|]. tauto.
Qed.
Lemma fix_feas_keep feas : (forall i, In i feas -> In i (c_feas c)) ->
  forall l u b l' u', fix_feas (x_sol s) (x_over s) T feas l u = Ok (b, (l', u')) -> within l u x -> within l' u' x.
Proof.
  intros Sub. induction feas as [|i feas IH]; intros l u b l' u' H Wi; cbn [fix_feas] in H.
  { injection H as <- <- <-. exact Wi. }
  assert (Sub' : forall j, In j feas -> In j (c_feas c)) by (intros j J; apply Sub; right; exact J). specialize (IH Sub').
  bok H b0 E0. bok H b1 E1. bok H r Er. destruct r as [b' [l2 u2]]. injection H as <- <- <-.
  apply (IH _ _ _ _ _ Er). clear Er IH.
  assert (Ii : In i (c_feas c)) by (apply Sub; left; reflexivity).
  destruct (lists_ok s W c C) as (_ & _ & _ & LF). pose proof (proj1 (LF i) Ii) as [L Lo].
  destruct (feas_ok s W i L (proj1 Lo)) as (k & K & A & KB).
  pose proof (near_floor _ _ K A) as NF. pose proof (near_ceil _ _ K A) as NC.
  pose proof (near_down _ _ K A) as ND. pose proof (near_up _ _ K A) as NU.
  pose proof (tr_int s F f TR i x L Fx) as Ix.
  rewrite (one_col s W c n i L). change (nth (col s i) (x_sol s) 0) with (value s i).
  assert (G0 : b0 = true -> k <= nth (col s i) x 0).
  { intros ->. destruct (r_e0 (nth i T dres)) eqn:R0; [|discriminate]. bok E0 d Ed. apply get_ok in Ed. injection E0 as Fd.
    pose proof (T_feas i false Ii R0) as G. cbn [gs snd] in G. rewrite Ed in G. injection G as ->.
    apply fathomable_iff, excluded in Fd. unfold keeps in Fd. cbn [fb b_up b_bd b_col] in Fd. rewrite ND in Fd.
    apply integral_lt; [exact K|exact Ix|]. apply Qnot_le_lt in Fd. lra. }
  assert (G1 : b1 = true -> nth (col s i) x 0 <= k).
  { intros ->. destruct (r_e1 (nth i T dres)) eqn:R1; [|discriminate]. bok E1 d Ed. apply get_ok in Ed. injection E1 as Fd.
    pose proof (T_feas i true Ii R1) as G. cbn [gs snd] in G. rewrite Ed in G. injection G as ->.
    apply fathomable_iff, excluded in Fd. unfold keeps in Fd. cbn [fb b_up b_bd b_col] in Fd. rewrite NU in Fd.
    apply integral_lt; [exact Ix|exact K|]. apply Qnot_le_lt in Fd. lra. }
  assert (Wl : within (if b0 then put (col s i) (cei (value s i - half)) l else l) u x).
  { destruct b0; [|exact Wi]. apply within_lo; [exact Wi|]. rewrite NC. auto. }
  destruct b1; [|exact Wl]. apply within_up; [exact Wl|]. rewrite NF. auto.
Qed.
End Point.
(** The whole decision. *)
Lemma decision_sound F f d l u : truthful s F f -> (x_ndebug s = false \/ allboth) ->
  process_SB_results (x_sol s) (x_ndebug s) (x_over s) (x_maxmin s) (x_val s) (x_pref s) (x_high s) (c_inf c) (c_feas c) T (x_lo s) (x_up s) = Ok (d, (l, u)) ->
  forall x, F x -> within (x_lo s) (x_up s) x -> x_over s (f x) = false -> d <> DFathom /\ within l u x.
Proof.
  intros TR H0 H x Fx Wx Ox. unfold process_SB_results in H. bok H ft Ef. destruct ft.
  { exfalso. destruct (fathom_true _ _ _ _ Ef) as (i & d0 & d1 & I & Sd & H1 & H2 & B).
    assert (Bi : both T i).
    { destruct H0 as [H0|H0]; [apply B, H0|]. apply H0; [exact I|apply Sd]. }
    destruct (inf_sides i d0 d1 I Bi Sd) as [-> ->]. destruct (lists_ok s W c C) as (_ & _ & LI & _). pose proof (proj1 (LI i) I) as [L _].
    apply (excluded F f TR x Fx Wx Ox) in H1. apply (excluded F f TR x Fx Wx Ox) in H2. unfold keeps in H1, H2.
    cbn [ib b_up b_bd b_col] in H1, H2. destruct (x_split F f TR x Fx i L); contradiction. }
  assert (AB : forall i, In i (c_inf c) -> touched T i -> both T i).
  { destruct H0 as [H0|H0]; [|exact H0]. intros i I. apply (fathom_false _ _ _ _ Ef i I). exact H0. }
  bok H r Er. destruct r as [lost [l1 u1]]. bok H r' Er'. destruct r' as [moved [l2 u2]].
  assert (W2 : within l2 u2 x).
  { eapply (fix_feas_keep F f TR x Fx Wx Ox (c_feas c)); [auto|exact Er'|].
    eapply (fix_inf_keep F f TR x Fx Wx Ox (c_inf c)); [auto|exact AB|exact Er|exact Wx]. }
  destruct lost; [injection H as <- <- <-; split; [discriminate|exact W2]|].
  bok H p Ep. destruct p as [[[k w] v]|]; [injection H as <- <- <-; split; [discriminate|exact W2]|].
  destruct (first_open _ _ _); [injection H as <- <- <-; split; [discriminate|exact W2]|].
  bok H k Ek. injection H as <- <- <-. split; [discriminate|exact W2].
Qed.

(** Columns of other candidates are left alone. *)
Lemma fix_inf_other inf j : (forall i, In i inf -> In i (c_inf c) /\ col s i <> j) ->
  forall l u b l' u', fix_inf (x_sol s) (x_over s) T inf l u = Ok (b, (l', u')) -> nth j l' 0 = nth j l 0 /\ nth j u' 0 = nth j u 0.
Proof.
  induction inf as [|i inf IH]; intros Sub l u b l' u' H; cbn [fix_inf] in H; [injection H as <- <- <-; auto|].
  assert (Sub' : forall k, In k inf -> In k (c_inf c) /\ col s k <> j) by (intros k K; apply Sub; right; exact K). specialize (IH Sub').
  destruct (evaluated _); [|exact (IH _ _ _ _ _ H)]. bok H d0 E0. bok H d1 E1. bok H r Er. destruct r as [b' [l2 u2]]. injection H as <- <- <-.
  destruct (IH _ _ _ _ _ Er) as [-> ->]. destruct (Sub i (or_introl eq_refl)) as [I N].
  destruct (lists_ok s W c C) as (_ & _ & LI & _). pose proof (proj1 (LI i) I) as [L _]. rewrite (one_col s W c n i L).
  destruct (fathomable _ d0), (fathomable _ d1); rewrite ?nth_put_other by exact N; auto.
Qed.
Lemma fix_feas_other feas j : (forall i, In i feas -> In i (c_feas c) /\ col s i <> j) ->
  forall l u b l' u', fix_feas (x_sol s) (x_over s) T feas l u = Ok (b, (l', u')) -> nth j l' 0 = nth j l 0 /\ nth j u' 0 = nth j u 0.
Proof.
  induction feas as [|i feas IH]; intros Sub l u b l' u' H; cbn [fix_feas] in H; [injection H as <- <- <-; auto|].
  assert (Sub' : forall k, In k feas -> In k (c_feas c) /\ col s k <> j) by (intros k K; apply Sub; right; exact K). specialize (IH Sub').
  bok H b0 E0. bok H b1 E1. bok H r Er. destruct r as [b' [l2 u2]]. injection H as <- <- <-.
  destruct (IH _ _ _ _ _ Er) as [-> ->]. destruct (Sub i (or_introl eq_refl)) as [I N].
  destruct (lists_ok s W c C) as (_ & _ & _ & LF). pose proof (proj1 (LF i) I) as [L _]. rewrite (one_col s W c n i L).
  destruct b0, b1; rewrite ?nth_put_other by exact N; auto.
Qed.
Lemma col_inj i j : (i < List.length (x_objs s))%nat -> (j < List.length (x_objs s))%nat -> col s i = col s j -> i = j.
Proof.
  intros Li Lj E. pose proof (wf_cols s W) as N. rewrite (NoDup_nth _ 0%nat) in N. apply N; rewrite ?map_length; [exact Li|exact Lj|].
  change 0%nat with (o_col dobj). rewrite !map_nth. exact E.
Qed.
Lemma col_range i : (i < List.length (x_objs s))%nat -> (col s i < List.length (x_lo s))%nat.
Proof. intros L. pose proof (wf_range s W) as R. rewrite Forall_forall in R. apply R. apply nth_In. exact L. Qed.
Lemma fix_inf_lens inf : forall l u b l' u', fix_inf (x_sol s) (x_over s) T inf l u = Ok (b, (l', u')) ->
  List.length l' = List.length l /\ List.length u' = List.length u.
Proof.
  induction inf as [|i inf IH]; intros l u b l' u' H; cbn [fix_inf] in H; [injection H as <- <- <-; auto|].
  destruct (evaluated _); [|exact (IH _ _ _ _ _ H)]. bok H d0 E0. bok H d1 E1. bok H r Er. destruct r as [b' [l2 u2]]. injection H as <- <- <-.
  destruct (IH _ _ _ _ _ Er) as [-> ->]. destruct (fathomable _ d0), (fathomable _ d1); rewrite ?put_length; auto.
Qed.
Lemma fix_inf_moves inf : NoDup inf -> (forall i, In i inf -> In i (c_inf c)) -> forall l u l' u',
  (forall i, In i inf -> nth (col s i) l 0 = low s i /\ nth (col s i) u 0 = high s i /\ (col s i < List.length l)%nat /\ (col s i < List.length u)%nat) ->
  fix_inf (x_sol s) (x_over s) T inf l u = Ok (true, (l', u')) -> exists i, In i inf /\
    (low s i < nth (col s i) l' 0 \/ nth (col s i) u' 0 < high s i).
Proof.
  induction 1 as [|i inf N1 N2 IH]; intros Sub l u l' u' Eq0 H; cbn [fix_inf] in H; [discriminate|].
  assert (Sub' : forall k, In k inf -> In k (c_inf c)) by (intros k K; apply Sub; right; exact K).
  destruct (lists_ok s W c C) as (_ & _ & LI & _). pose proof (proj1 (LI i) (Sub i (or_introl eq_refl))) as [L Fr].
  assert (Ne : forall k, In k inf -> In k (c_inf c) /\ col s k <> col s i).
  { intros k K. split; [apply Sub', K|]. intros G. apply N1. rewrite <- (col_inj k i); auto. apply LI. apply Sub', K. }
  assert (Eq' : forall k, In k inf -> nth (col s k) l 0 = low s k /\ nth (col s k) u 0 = high s k /\ (col s k < List.length l)%nat /\ (col s k < List.length u)%nat)
    by (intros k K; apply Eq0; right; exact K).
  destruct (evaluated _).
  - bok H d0 E0. bok H d1 E1. bok H r Er. destruct r as [b' [l2 u2]]. injection H as Hb <- <-.
    rewrite (one_col s W c n i L) in Er. change (nth (col s i) (x_sol s) 0) with (value s i) in Er.
    destruct (Eq0 i (or_introl eq_refl)) as (_ & _ & Rl & Ru). destruct (frac_ok s W i L Fr) as [Bd NI].
    destruct (fix_inf_other inf (col s i) Ne _ _ _ _ _ Er) as [Gl Gu].
    pose proof (cei_spec (value s i)) as Cs. pose proof (flo_spec (value s i)) as Fs.
    destruct (fathomable _ d0) eqn:F0.
    { exists i. split; [left; reflexivity|]. left. rewrite Gl, put_nth, Nat.eqb_refl by exact Rl. lra. }
    destruct (fathomable _ d1) eqn:F1.
    { exists i. split; [left; reflexivity|]. right. rewrite Gu, put_nth, Nat.eqb_refl by exact Ru. lra. }
    cbn [orb] in Hb. subst b'. destruct (IH Sub' _ _ _ _ Eq' Er) as (k & K & G). exists k. split; [right; exact K|exact G].
  - destruct (IH Sub' _ _ _ _ Eq' H) as (k & K & G). exists k. split; [right; exact K|exact G].
Qed.
Lemma resolve_smaller l u :
  process_SB_results (x_sol s) (x_ndebug s) (x_over s) (x_maxmin s) (x_val s) (x_pref s) (x_high s) (c_inf c) (c_feas c) T (x_lo s) (x_up s) = Ok (DResolve, (l, u)) ->
  smaller s l u.
Proof.
  intros H. unfold process_SB_results in H. bok H ft Ef. destruct ft; [discriminate|].
  bok H r Er. destruct r as [lost [l1 u1]]. bok H r' Er'. destruct r' as [moved [l2 u2]].
  destruct lost.
  - injection H as <- <-. destruct (lists_ok s W c C) as (ND & _ & LI & LF).
    destruct (fix_inf_moves (c_inf c) ND ltac:(auto) (x_lo s) (x_up s) l1 u1) as (i & I & G).
    { intros i I. split; [reflexivity|]. split; [reflexivity|]. apply LI in I. destruct I as [L _].
      rewrite (wf_up s W). split; apply col_range; exact L. }
    { exact Er. }
    pose proof (proj1 (LI i) I) as [L Fr]. exists i. split; [exact L|]. split; [exact Fr|].
    destruct (fix_feas_other (c_feas c) (col s i)) with (l := l1) (u := u1) (b := moved) (l' := l2) (u' := u2) as [-> ->]; [|exact Er'|exact G].
    intros k K. split; [exact K|]. intros G'. apply LF in K. destruct K as [Lk [NF _]]. apply NF. rewrite (col_inj k i Lk L G'). exact Fr.
  - bok H p Ep. destruct p as [[[k w] v]|]; [discriminate|]. destruct (first_open _ _ _); [discriminate|]. bok H k Ek. discriminate.
Qed.

(** No reading of results that are not there. *)
Lemma sides_there i : allboth -> In i (c_inf c) -> touched T i -> sides T i (res s (ib s i false)) (res s (ib s i true)) /\ both T i.
Proof.
  intros AB I Ti. destruct (AB i I Ti) as [B0 B1]. split; [|split; assumption]. split; [exact Ti|].
  split; [apply (T_inf i false I B0)|apply (T_inf i true I B1)].
Qed.
Lemma fathom_runs inf : allboth -> (forall i, In i inf -> In i (c_inf c)) -> exists b, fathom_scan (x_ndebug s) (x_over s) T inf = Ok b.
Proof.
  intros AB Sub. induction inf as [|i inf IH]; cbn [fathom_scan]; [eauto|].
  assert (Sub' : forall k, In k inf -> In k (c_inf c)) by (intros k K; apply Sub; right; exact K).
  destruct (evaluated (nth i T dres)) eqn:E; [|exact (IH Sub')]. apply evaluated_iff in E.
  destruct (sides_there i AB (Sub i (or_introl eq_refl)) E) as [(_ & -> & ->) [-> ->]]. rewrite orb_true_r. cbn [chk get bind andb].
  destruct (fathomable _ _); [|exact (IH Sub')]. destruct (fathomable _ _); [eauto|exact (IH Sub')].
Qed.
Lemma fix_inf_runs inf : allboth -> (forall i, In i inf -> In i (c_inf c)) -> forall l u, exists r, fix_inf (x_sol s) (x_over s) T inf l u = Ok r.
Proof.
  intros AB Sub. induction inf as [|i inf IH]; intros l u; cbn [fix_inf]; [eauto|].
  assert (Sub' : forall k, In k inf -> In k (c_inf c)) by (intros k K; apply Sub; right; exact K).
  destruct (evaluated (nth i T dres)) eqn:E; [|exact (IH Sub' l u)]. apply evaluated_iff in E.
  destruct (sides_there i AB (Sub i (or_introl eq_refl)) E) as [(_ & -> & ->) _]. cbn [get bind].
  edestruct (IH Sub') as [[b lu] ->]. cbn [bind]. eauto.
Qed.
Lemma fix_feas_runs feas : (forall i, In i feas -> In i (c_feas c)) -> forall l u, exists r, fix_feas (x_sol s) (x_over s) T feas l u = Ok r.
Proof.
  intros Sub. induction feas as [|i feas IH]; intros l u; cbn [fix_feas]; [eauto|].
  assert (Sub' : forall k, In k feas -> In k (c_feas c)) by (intros k K; apply Sub; right; exact K).
  assert (G0 : exists b, (if r_e0 (nth i T dres) then do d <- get (r_d0 (nth i T dres)); Ok (fathomable (x_over s) d) else Ok false) = Ok b).
  { destruct (r_e0 (nth i T dres)) eqn:E; [|eauto]. pose proof (T_feas i false (Sub i (or_introl eq_refl)) E) as G. cbn [gs snd] in G. rewrite G. cbn [get bind]. eauto. }
  assert (G1 : exists b, (if r_e1 (nth i T dres) then do d <- get (r_d1 (nth i T dres)); Ok (fathomable (x_over s) d) else Ok false) = Ok b).
  { destruct (r_e1 (nth i T dres)) eqn:E; [|eauto]. pose proof (T_feas i true (Sub i (or_introl eq_refl)) E) as G. cbn [gs snd] in G. rewrite G. cbn [get bind]. eauto. }
  destruct G0 as [b0 ->]. destruct G1 as [b1 ->]. cbn [bind]. edestruct (IH Sub') as [[b lu] ->]. cbn [bind]. eauto.
Qed.
Lemma pick_runs inf : allboth -> (forall i, In i inf -> In i (c_inf c)) -> forall k best, exists p, pick (x_maxmin s) (x_val s) (x_pref s) (x_high s) T inf k best = Ok p.
Proof.
  intros AB Sub. induction inf as [|i inf IH]; intros k best; cbn [pick]; [eauto|].
  assert (Sub' : forall k, In k inf -> In k (c_inf c)) by (intros k' K; apply Sub; right; exact K). specialize (IH Sub').
  destruct (evaluated (nth i T dres)) eqn:E; [|apply IH]. apply evaluated_iff in E.
  destruct (sides_there i AB (Sub i (or_introl eq_refl)) E) as [(_ & -> & ->) _]. cbn [get bind].
  destruct (_ || _); [apply IH|]. destruct (better _ _ _); apply IH.
Qed.
Lemma first_half_runs inf : allboth -> (forall i, In i inf -> In i (c_inf c)) -> (forall i, In i inf -> touched T i) ->
  forall k best, exists p, first_half T inf k best = Ok p.
Proof.
  intros AB Sub Al. induction inf as [|i inf IH]; intros k best; cbn [first_half]; [eauto|].
  assert (Sub' : forall k, In k inf -> In k (c_inf c)) by (intros k' K; apply Sub; right; exact K).
  assert (Al' : forall k, In k inf -> touched T k) by (intros k' K; apply Al; right; exact K). specialize (IH Sub' Al').
  destruct (sides_there i AB (Sub i (or_introl eq_refl)) (Al i (or_introl eq_refl))) as [(_ & -> & ->) _]. cbn [get bind].
  destruct (negb _); [eauto|]. destruct (negb _); [eauto|apply IH].
Qed.
Lemma paired_allboth : paired c n -> allboth.
Proof.
  intros Pn i I [Ti|Ti].
  - split; [exact Ti|]. exact (both_sides s W c C n i false Pn I Ti).
  - split; [|exact Ti]. exact (both_sides s W c C n i true Pn I Ti).
Qed.
(** The first infeasible candidate is evaluated; all of them with a large number. *)
Lemma first_touched i rest : (0 < n)%nat -> c_inf c = i :: rest -> touched T i.
Proof.
  intros Ln E. left. assert (I : In (ib s i false) (firstn n (branches s c))).
  { unfold branches, all_branches. rewrite E. destruct n; [lia|]. left. reflexivity. }
  pose proof (one_set s W c C n _ I) as G. cbn [ib b_up b_obj gs] in G. injection G as G _. exact G.
Qed.
Lemma all_touched i : (2 * List.length (c_inf c) <= n)%nat -> In i (c_inf c) -> touched T i.
Proof.
  intros Ln Ii. left. assert (I : In (ib s i false) (firstn n (branches s c))).
  { rewrite firstn_split. apply in_app_iff. left. rewrite firstn_all2.
    - apply in_flat_map. exists i. split; [exact Ii|left; reflexivity].
    - revert Ln. clear. revert n. generalize (c_inf c). induction l as [|i l IH]; intros m; [simpl; lia|].
      cbn [flat_map inf_branches app List.length]. intros Ln. destruct m as [|[|m]]; try lia. specialize (IH m ltac:(lia)). lia. }
  pose proof (one_set s W c C n _ I) as G. cbn [ib b_up b_obj gs] in G. injection G as G _. exact G.
Qed.
Lemma chosen_touched k w m lu : (0 < n)%nat -> c_inf c <> [] -> (x_ndebug s = false \/ allboth) ->
  (never_abandons s \/ (2 * List.length (c_inf c) <= n)%nat) ->
  process_SB_results (x_sol s) (x_ndebug s) (x_over s) (x_maxmin s) (x_val s) (x_pref s) (x_high s) (c_inf c) (c_feas c) T (x_lo s) (x_up s) = Ok (DBranch k w m, lu) ->
  In (nth k (c_inf c) 0%nat) (c_inf c) /\ sides T (nth k (c_inf c) 0%nat) (res s (ib s (nth k (c_inf c) 0%nat) false)) (res s (ib s (nth k (c_inf c) 0%nat) true)).
Proof.
  intros Ln NE H0 NA H.
  assert (AB : allboth).
  { destruct H0 as [H0|H0]; [|exact H0]. unfold process_SB_results in H. bok H ft Ef. destruct ft; [discriminate|].
    intros i I. apply (fathom_false _ _ _ _ Ef i I). exact H0. }
  assert (G : (k < List.length (c_inf c))%nat /\ touched T (nth k (c_inf c) 0%nat)).
  { destruct (decision_ok _ _ _ _ _ _ _ _ _ _ _ _ _ _ NE H) as [_ Ch].
    assert (Big : (2 * List.length (c_inf c) <= n)%nat -> (k < List.length (c_inf c))%nat -> touched T (nth k (c_inf c) 0%nat)).
    { intros Bg Lk. apply all_touched; [exact Bg|]. apply nth_In. exact Lk. }
    destruct Ch as [(L & d0 & d1 & v & Tr & _)|(NT & _ & Ch)].
    - split; [exact L|]. destruct Tr as (Tr & _). exact Tr.
    - assert (Lk : (k < List.length (c_inf c))%nat).
      { assert (0 < List.length (c_inf c))%nat by (destruct (c_inf c); [congruence|simpl; lia]).
        destruct Ch as [(L & _)|[_ [(L & _)|[_ ->]]]]; [exact L|exact L|lia]. }
      split; [exact Lk|]. destruct NA as [NA|NA]; [|apply Big; assumption].
      exfalso. destruct (c_inf c) as [|i rest] eqn:Ei; [congruence|]. pose proof (first_touched i rest Ln Ei) as Ti.
      assert (Ii : In i (c_inf c)) by (rewrite Ei; left; reflexivity).
      destruct (sides_there i AB Ii Ti) as [(_ & S0 & S1) _].
      apply (NT i (or_introl eq_refl)). exists (res s (ib s i false)), (res s (ib s i true)). split; [exact Ti|]. split; [exact S0|]. split; [exact S1|].
      unfold res, sside, answer. cbn [d_st fst]. split; apply NA. }
  destruct G as [Lk Tk]. assert (Ik : In (nth k (c_inf c) 0%nat) (c_inf c)) by (apply nth_In; exact Lk).
  split; [exact Ik|]. apply sides_there; assumption.
Qed.
Lemma process_runs : allboth ->
  exists d lu, process_SB_results (x_sol s) (x_ndebug s) (x_over s) (x_maxmin s) (x_val s) (x_pref s) (x_high s) (c_inf c) (c_feas c) T (x_lo s) (x_up s) = Ok (d, lu).
Proof.
  intros AB. unfold process_SB_results.
  destruct (fathom_runs (c_inf c) AB ltac:(auto)) as [b ->]. cbn [bind]. destruct b; [eauto|].
  destruct (fix_inf_runs (c_inf c) AB ltac:(auto) (x_lo s) (x_up s)) as [[lost [l1 u1]] ->]. cbn [bind].
  destruct (fix_feas_runs (c_feas c) ltac:(auto) l1 u1) as [[moved [l2 u2]] ->]. cbn [bind]. destruct lost; [eauto|].
  destruct (pick_runs (c_inf c) AB ltac:(auto) 0%nat None) as [p ->]. cbn [bind]. destruct p as [[[k w] v]|]; [eauto|].
  pose proof (first_open_spec T (c_inf c) 0) as FO. destruct (first_open T (c_inf c) 0); [eauto|].
  destruct (first_half_runs (c_inf c) AB ltac:(auto)) with (k := 0%nat) (best := 0%nat) as [k ->].
  { intros i I. destruct (evaluated (nth i T dres)) eqn:E; [apply evaluated_iff, E|]. exfalso. apply (FO i I). rewrite <- evaluated_iff. congruence. }
  cbn [bind]. eauto.
Qed.
End Sound.

(** ** The node *)
Section NodeProofs.
Variable s : site.
Hypothesis W : well_formed s.
Lemma asked_range c num n : candidates s = Ok c -> asked s (c_num c) = Ok n -> num = c_num c -> (0 < n)%Z -> (0 < Z.to_nat n <= Z.to_nat (c_num c))%nat.
Proof.
  intros C A _ P. assert (n <= c_num c)%Z; [|lia]. pose proof (wf_pids s W c C) as Wp. unfold asked, how_many in A.
  destruct (Z.eqb _ _); [bok A r Er; injection A as <-; lia|]. bok A m Em. destruct (Z.ltb _ _).
  - bok A t Et. injection A as <-. lia.
  - destruct (Nat.ltb 0 (x_pids s)) eqn:E; injection A as <-; [|lia]. apply Nat.ltb_lt in E. lia.
Qed.
(** What branching at a node consists of. *)
Lemma branch_inv t : branch_at_node s = Ok t -> t = BLocal \/
  exists c n d l u, candidates s = Ok c /\ c_inf c <> [] /\ asked s (c_num c) = Ok n /\ (0 < n)%Z /\
    (x_ndebug s = true \/ x_pids s = 0%nat \/ (Z.to_nat n < x_pids s + 1)%nat) /\
    process_SB_results (x_sol s) (x_ndebug s) (x_over s) (x_maxmin s) (x_val s) (x_pref s) (x_high s) (c_inf c) (c_feas c)
      (one_process s (Z.to_nat n) c) (x_lo s) (x_up s) = Ok (d, (l, u)) /\
    match d with
    | DFathom => t = BFathomed
    | DResolve => t = BResolve l u
    | DBranch k w _ => exists d0 d1, r_d0 (nth (nth k (c_inf c) 0%nat) (one_process s (Z.to_nat n) c) dres) = Some d0 /\
        r_d1 (nth (nth k (c_inf c) 0%nat) (one_process s (Z.to_nat n) c) dres) = Some d1 /\
        t = BBranch (nth k (c_inf c) 0%nat) w l u (if w then [(d_st d1, d_val d1); (d_st d0, d_val d0)] else [(d_st d0, d_val d0); (d_st d1, d_val d1)])
    end.
Proof.
  intros H. unfold branch_at_node, bbBranch in H. bok H tr Et. unfold try_to_branch in Et. bok Et c C. fold (candidates s) in C.
  destruct (c_inf c) as [|i0 r0] eqn:Ei; [injection Et as <-; discriminate|]. rewrite <- Ei in Et.
  bok Et n En. fold (asked s (c_num c)) in En. destruct (Z.ltb 0 n) eqn:Ln; [|injection Et as <-; injection H as <-; left; reflexivity].
  apply Z.ltb_lt in Ln. right. bok Et e Ee. destruct e as [tab1 un].
  destruct (evaluate_eq s W c C (Z.to_nat n) (asked_range c _ n C En eq_refl Ln)) as [(_ & _ & _ & G)|(Cd & un' & G & _)]; unfold evaluate in G; rewrite G in Ee; [discriminate|].
  injection Ee as <- <-. bok Et dd Ed. destruct dd as [d [l u]]. injection Et as <-.
  exists c, n, d, l, u. split; [exact C|]. split; [rewrite Ei; discriminate|]. split; [exact En|]. split; [exact Ln|]. split; [exact Cd|]. split; [exact Ed|].
  destruct d as [| |k w m]; [injection H as <-; reflexivity|injection H as <-; reflexivity|].
  bok H d0 E0. bok H d1 E1. apply get_ok in E0. apply get_ok in E1. injection H as <-. exists d0, d1. auto.
Qed.
Lemma node_sound F f t : truthful s F f ->
  (x_ndebug s = false \/ forall c n, candidates s = Ok c -> asked s (c_num c) = Ok n -> (0 < n)%Z -> paired c (Z.to_nat n)) ->
  branch_at_node s = Ok t -> nothing_lost s F f t.
Proof.
  intros TR H0 H. destruct (branch_inv t H) as [->|(c & n & d & l & u & C & NE & An & Ln & _ & Ed & Et)]; [intros x _ _ _; exact Logic.I|].
  assert (AB : x_ndebug s = false \/ allboth s c (Z.to_nat n)).
  { destruct H0 as [H0|H0]; [left; exact H0|right]. apply (paired_allboth s W c C). apply (H0 c n C An Ln). }
  intros x Fx Wx Ox. destruct (decision_sound s W c C (Z.to_nat n) F f d l u TR AB Ed x Fx Wx Ox) as [ND W2].
  destruct d as [| |k w m]; [congruence|rewrite Et; exact W2|]. destruct Et as (d0 & d1 & _ & _ & ->). split; [exact W2|].
  apply (x_split s F f TR x Fx). destruct (lists_ok s W c C) as (_ & _ & LI & _).
  destruct (nth_in_or_default k (c_inf c) 0%nat) as [I|E0]; [apply LI, I|]. rewrite E0.
  destruct (x_objs s) eqn:Eo; [destruct (wf_some s W Eo)|simpl; lia].
Qed.
Lemma node_runs c n : candidates s = Ok c -> c_inf c <> [] -> asked s (c_num c) = Ok n ->
  (x_ndebug s = true \/ x_pids s = 0%nat \/ (Z.to_nat n < x_pids s + 1)%nat) ->
  paired c (Z.to_nat n) -> (never_abandons s \/ (2 * List.length (c_inf c) <= Z.to_nat n)%nat) ->
  exists t, branch_at_node s = Ok t.
Proof.
  intros C NE An Cd Pn NA. unfold branch_at_node, bbBranch, try_to_branch. fold (candidates s). rewrite C. cbn [bind].
  destruct (c_inf c) as [|i0 r0] eqn:Ei; [congruence|]. rewrite <- Ei in *. fold (asked s (c_num c)). rewrite An. cbn [bind].
  destruct (Z.ltb 0 n) eqn:Ln; [|cbn [bind]; eauto]. apply Z.ltb_lt in Ln.
  pose proof (asked_range c _ n C An eq_refl Ln) as Rg.
  destruct (evaluate_eq s W c C (Z.to_nat n) Rg) as [(A1 & A2 & A3 & G)|(_ & un & G & _)]; [exfalso; destruct Cd as [Cd|[Cd|Cd]]; [congruence|lia|lia]|].
  unfold evaluate in G. rewrite G. cbn [bind].
  pose proof (paired_allboth s W c C _ Pn) as AB.
  destruct (process_runs s W c C (Z.to_nat n) AB) as (d & [l u] & Ed). rewrite Ed. cbn [bind].
  destruct d as [| |k w m]; [eauto|eauto|].
  destruct (chosen_touched s W c C (Z.to_nat n) k w m (l, u)) as [_ (_ & S0 & S1)]; [lia|exact NE|right; exact AB|exact NA|exact Ed|].
  rewrite S0, S1. cbn [get bind]. eauto.
Qed.
Lemma node_values t : x_ndebug s = false -> never_abandons s -> branch_at_node s = Ok t ->
  match t with
  | BBranch i w _ _ pre => exists p q, pre = [p; q] /\ of_this_node s i w p /\ of_this_node s i (negb w) q
  | _ => True
  end.
Proof.
  intros ND NA H. destruct (branch_inv t H) as [->|(c & n & d & l & u & C & NE & An & Ln & _ & Ed & Et)]; [exact Logic.I|].
  destruct d as [| |k w m]; [rewrite Et; exact Logic.I|rewrite Et; exact Logic.I|].
  destruct Et as (d0 & d1 & E0 & E1 & ->).
  destruct (chosen_touched s W c C (Z.to_nat n) k w m (l, u)) as [_ (_ & S0 & S1)]; [lia|exact NE|left; exact ND|left; exact NA|exact Ed|].
  rewrite E0 in S0. rewrite E1 in S1. injection S0 as ->. injection S1 as ->.
  assert (Pr : forall b, (d_st (res s b), d_val (res s b)) = answer (x_solve s) (x_lo s) (x_up s) b).
  { intros b. unfold res, sside. cbn [d_st d_val]. destruct (answer _ _ _ _); reflexivity. }
  rewrite !Pr. destruct w; (eexists; eexists; split; [reflexivity|]; split; reflexivity).
Qed.
Lemma node_resolves l u : branch_at_node s = Ok (BResolve l u) -> smaller s l u.
Proof.
  intros H. destruct (branch_inv _ H) as [E|(c & n & d & l' & u' & C & NE & An & Ln & _ & Ed & Et)]; [discriminate|].
  destruct d as [| |k w m]; [discriminate| |destruct Et as (? & ? & _ & _ & Et); discriminate].
  injection Et as -> ->. exact (resolve_smaller s W c C (Z.to_nat n) l' u' Ed).
Qed.
End NodeProofs.
