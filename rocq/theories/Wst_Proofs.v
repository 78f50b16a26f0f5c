From Verif Require Import Base Arr Wst_Model Wst_Spec.
#[local] Open Scope Q_scope.

Definition post (P : st -> Prop) (o : outcome st) : Prop := match o with Ok s => P s | Thrown => True | _ => False end.
Lemma post_imp (P R : st -> Prop) o : post P o -> (forall s, P s -> R s) -> post R o.
Proof. destruct o; cbn; auto. Qed.
Lemma post_bind P R o f : post P o -> (forall s, P s -> post R (f s)) -> post R (bind o f).
Proof. destruct o; cbn; auto. Qed.
Lemma post_ok (P : st -> Prop) s : P s -> post P (Ok s). Proof. auto. Qed.

Section Problem.
Variable n m : nat.
Variable user : list Q.
Variable ans : nat -> answer.
Variable rnd : nat -> list Q.
Variable mode : nat.
Variable pretend : bool.
Variable ru : nat.
Hypothesis Hn : (0 < n)%nat.
Hypothesis Hu : (n <= length user)%nat.
Hypothesis Hs : sizes n m ans rnd.
Notation call := (call n m user ans). Notation setxInit := (setxInit n). Notation setDualsInit := (setDualsInit n m).
Notation randomStart := (randomStart n rnd). Notation used := (used n m). Notation setW := (solver_setWarmStart n m).
Notation tries := (tries n m user ans rnd). Notation cost := (cost n m user ans rnd mode). Notation again := (again n m user ans rnd).
Notation robust := (robust n m user ans rnd mode pretend). Notation after := (after n m user ans rnd mode pretend ru).
Notation initialSolve := (initialSolve n m user ans rnd mode pretend ru). Notation resolve := (resolve n m user ans rnd mode pretend ru).
Notation run := (run n m user ans rnd mode pretend ru). Notation step := (step n m user ans rnd mode pretend ru).

Lemma chk_true b : b = true -> chk b = Ok tt. Proof. intros ->; reflexivity. Qed.

(** setting a start of the right sizes *)
Lemma setxInit_ok x s : length x = n -> setxInit x s = Ok (set_init (x ++ skipn n (s_x s)) true (s_du s) s).
Proof.
  intros E; unfold Wst_Model.setxInit; rewrite E, Nat.eqb_refl; cbn [chk bind]. do 2 f_equal.
  replace (Nat.ltb 0 n) with true by (symmetry; apply Nat.ltb_lt; lia). apply Bool.orb_true_r.
Qed.
Lemma setDualsInit_ok d s : length d = (2 * n + m)%nat ->
  setDualsInit d s = Ok (set_init (firstn n (s_x s) ++ repeat 0 (n - length (s_x s)) ++ d) true true s).
Proof.
  intros E; unfold Wst_Model.setDualsInit; rewrite E. replace (Nat.eqb (2 * n + m) (n * 2 + m)) with true by (symmetry; apply Nat.eqb_eq; lia).
  cbn [chk bind]. do 2 f_equal. replace (Nat.ltb 0 (3 * n + m)) with true by (symmetry; apply Nat.ltb_lt; lia). apply Bool.orb_true_r.
Qed.
Lemma pad_length (l : list Q) : length (firstn n l ++ repeat 0 (n - length l)) = n.
Proof. rewrite app_length, firstn_length, repeat_length; lia. Qed.
Lemma setW_ok w s : sized n m w -> w_empty w = false ->
  setW (Some w) s = Ok (mkSt (w_x w ++ w_d w) true true true (s_xs s) (s_ds s) (s_kind s) (s_ws s) (s_log s)).
Proof.
  intros [Ex Ed] Ee; unfold solver_setWarmStart; rewrite Ee. replace (Nat.ltb 0 (length (w_d w))) with true by (symmetry; apply Nat.ltb_lt; lia).
  rewrite setDualsInit_ok by exact Ed. cbn [bind]. rewrite Ex, Ed, !Nat.eqb_refl; cbn [chk bind].
  rewrite setxInit_ok by exact Ex. unfold set_warm, set_init; cbn. do 2 f_equal.
  rewrite app_assoc, skipn_app, pad_length, Nat.sub_diag, skipn_O, skipn_all2 by (rewrite pad_length; lia). reflexivity.
Qed.

(** What a solve leaves alone. *)
Definition frame (s s' : st) : Prop := s_x s' = s_x s /\ s_alloc s' = s_alloc s /\ s_du s' = s_du s /\ s_warm s' = s_warm s /\ s_ws s' = s_ws s.
Lemma call_frame s s' : call s = Ok s' -> frame s s' /\ exists q, get_start n m user s = Ok q /\ s_log s' = s_log s ++ [q].
Proof.
  unfold Wst_Model.call; intros H; apply bind_ok in H; destruct H as (q & Hq & H). injection H as <-. unfold frame.
  destruct q; cbn; repeat split; eauto.
Qed.

(** Stored points. *)
Definition shape (s : st) : Prop := s_x s = [] \/ length (s_x s) = n \/ length (s_x s) = (3 * n + m)%nat.
Definition solved (s : st) : Prop := length (s_xs s) = n /\ length (s_ds s) = (2 * n + m)%nat.
Definition Inv (s : st) : Prop := ~ In None (s_log s) /\ shape s /\ match s_ws s with Some w => sized n m w | None => True end.

Lemma get_start_cold s : shape s -> s_warm s = false -> get_start n m user s = Ok (Some (mkStart (point_of n user s) None)).
Proof.
  intros Sh W. unfold get_start, point_of; rewrite W. destruct (s_x s) as [|a l] eqn:E.
  - rewrite chk_true by (apply Nat.leb_le; lia). reflexivity.
  - replace (Nat.leb n (length (a :: l))) with true; [reflexivity|]. symmetry; apply Nat.leb_le. rewrite <- E.
    destruct Sh as [Sh | [Sh | Sh]]; [rewrite E in Sh; discriminate | lia | lia].
Qed.
Lemma get_start_warm s : length (s_x s) = (3 * n + m)%nat -> s_du s = true -> s_warm s = true ->
  get_start n m user s = Ok (Some (mkStart (firstn n (s_x s)) (Some (skipn n (s_x s))))).
Proof.
  intros L D W. unfold get_start; rewrite W, D. destruct (s_x s) as [|a l] eqn:E; [cbn in L; lia|].
  replace (Nat.leb n (length (a :: l))) with true by (symmetry; apply Nat.leb_le; lia). cbn [bind].
  rewrite chk_true by (apply Nat.eqb_eq; exact L). reflexivity.
Qed.
Lemma call_post s q (P : st -> Prop) : get_start n m user s = Ok (Some q) ->
  (forall s', frame s s' -> s_log s' = s_log s ++ [Some q] -> solved s' -> P s') -> post P (call s).
Proof.
  intros G H. unfold Wst_Model.call; rewrite G; cbn [bind post]. apply H; cbn; auto.
  - unfold frame; cbn; auto.
  - destruct Hs as [_ Ha]. split; apply Ha.
Qed.
Lemma call_inv s q : get_start n m user s = Ok (Some q) -> Inv s -> post (fun s' => Inv s' /\ frame s s' /\ solved s' /\ s_log s' = s_log s ++ [Some q]) (call s).
Proof.
  intros G (I1 & I2 & I3). apply (call_post s q _ G). intros s' F L SS. repeat split; try apply F; try apply SS; auto.
  - rewrite L. intros HI; apply in_app_or in HI; destruct HI as [HI | [HI | []]]; [tauto | discriminate].
  - unfold shape; rewrite (proj1 F). exact I2.
  - destruct F as (_ & _ & _ & _ & ->). exact I3.
Qed.
Lemma shape_rand x s : length x = n -> shape s -> length (x ++ skipn n (s_x s)) = n \/ length (x ++ skipn n (s_x s)) = (3 * n + m)%nat.
Proof. intros L Sh. rewrite app_length, skipn_length. destruct Sh as [-> | [-> | ->]]; cbn; lia. Qed.
Lemma random_ok s : randomStart s = Ok (mkSt (rnd (length (s_log s)) ++ skipn n (s_x s)) true (s_du s) false (s_xs s) (s_ds s) (s_kind s) (s_ws s) (s_log s)).
Proof. unfold Wst_Model.randomStart. rewrite setxInit_ok by apply Hs. reflexivity. Qed.
Lemma random_inv s : Inv s -> post (fun s' => Inv s' /\ s_warm s' = false /\ s_ws s' = s_ws s /\ s_du s' = s_du s) (randomStart s).
Proof.
  intros (I1 & I2 & I3). rewrite random_ok. cbn. repeat split; auto. cbn. right. apply shape_rand; [apply Hs | exact I2].
Qed.
Lemma tries_inv k : forall s, Inv s -> post (fun s' => Inv s' /\ s_ws s' = s_ws s) (tries k s).
Proof.
  induction k; intros s I; cbn [Wst_Model.tries]; [cbn; auto|].
  eapply post_bind; [apply random_inv, I|]. intros s1 (I1 & W1 & E1 & _).
  eapply post_bind; [eapply call_inv; [apply get_start_cold; [apply I1 | exact W1] | exact I1]|].
  intros s2 (I2 & F2 & _). eapply post_imp; [apply IHk, I2|]. intros s3 (I3 & E3).
  split; [exact I3|]. rewrite E3. destruct F2 as (_ & _ & _ & _ & ->). exact E1.
Qed.

Lemma again_inv k : forall s, Inv s -> solved s ->
  match again k s with Ok (b, s') => Inv s' /\ solved s' /\ s_ws s' = s_ws s | Thrown => True | _ => False end.
Proof.
  induction k; intros s I J; cbn [Wst_Model.again]; [auto|].
  pose proof (random_inv s I) as R. destruct (randomStart s) as [s1| | | | | | |]; cbn [post bind] in *; try tauto. destruct R as (I1 & W1 & E1 & _).
  pose proof (call_inv s1 _ (get_start_cold s1 (proj1 (proj2 I1)) W1) I1) as R. destruct (call s1) as [s2| | | | | | |]; cbn [post bind] in *; try tauto.
  destruct R as (I2 & F2 & J2 & _). assert (E2 : s_ws s2 = s_ws s) by (destruct F2 as (_ & _ & _ & _ & ->); exact E1).
  destruct (failed s2); [|auto].
  pose proof (IHk s2 I2 J2) as R. destruct (again k s2) as [[b s3]| | | | | | |]; try tauto. rewrite <- E2. exact R.
Qed.
Lemma inv_set_ws s w : Inv s -> match w with Some w => sized n m w | None => True end -> Inv (set_ws w s).
Proof. intros (I1 & I2 & I3) H. repeat split; auto. Qed.
Lemma inv_set_warm s b : Inv s -> Inv (set_warm b s).
Proof. intros (I1 & I2 & I3). repeat split; auto. Qed.
Lemma inv_reset s : Inv s -> Inv (reset s).
Proof. intros (I1 & I2 & I3). repeat split; auto. left; reflexivity. Qed.

Lemma robust_inv k s : (2 <= mode)%nat -> Inv s -> post (fun s' => Inv s' /\ solved s' /\ s_ws s' = None) (robust k s).
Proof.
  intros Hm I. unfold Wst_Model.robust. replace (Nat.ltb mode 2) with false by (symmetry; apply Nat.ltb_ge; lia). cbn [bind].
  set (s0 := reset (set_warm false (set_ws None s))).
  assert (I0 : Inv s0) by (apply inv_reset, inv_set_warm, inv_set_ws; auto).
  eapply post_bind; [eapply call_inv; [apply get_start_cold; [apply I0 | reflexivity] | exact I0]|].
  intros s1 (I1 & F1 & J1 & _). assert (E1 : s_ws s1 = None) by (destruct F1 as (_ & _ & _ & _ & ->); reflexivity).
  assert (R : match (if failed s1 then again k s1 else Ok (true, s1)) with Ok (b, s') => Inv s' /\ solved s' /\ s_ws s' = s_ws s1 | Thrown => True | _ => False end)
    by (destruct (failed s1); [apply again_inv; auto | auto]).
  destruct (if failed s1 then again k s1 else Ok (true, s1)) as [[b s2]| | | | | | |]; cbn [bind post] in *; try tauto.
  destruct R as (I2 & J2 & E2). destruct b; cbn [orb].
  - apply post_ok. repeat split; try apply I2; try apply J2. cbn. congruence.
  - destruct pretend; [|exact Logic.I]. apply post_ok. repeat split; try apply I2; try apply J2. congruence.
Qed.
Lemma cost_inv k keep best s : (2 <= mode)%nat -> length (fst best) = n -> length (snd best) = (2 * n + m)%nat -> Inv s ->
  (keep = true -> (2 < mode)%nat \/ (s_du s = true -> length (s_x s) = (3 * n + m)%nat)) ->
  post (fun s' => Inv s' /\ solved s' /\ s_ws s' = None) (cost k keep best s).
Proof.
  intros Hm B1 B2 I Hk. unfold Wst_Model.cost. replace (Nat.ltb mode 2) with false by (symmetry; apply Nat.ltb_ge; lia). cbn [andb].
  assert (U : exists b, (if (Nat.leb mode 2 && keep)%bool then used (set_ws None s) else Ok None) = Ok b).
  { destruct (Nat.leb mode 2 && keep)%bool eqn:E; [|eauto]. apply andb_prop in E. destruct E as [E1 ->]. apply Nat.leb_le in E1.
    destruct (Hk eq_refl) as [Hk' | Hk']; [lia|]. unfold Wst_Model.used; cbn. destruct (s_alloc s), (s_du s); cbn; eauto.
    rewrite (Hk' eq_refl). replace (n + (n + (n + 0)) + m)%nat with (3 * n + m)%nat by lia. rewrite Nat.leb_refl. eauto. }
  destruct U as (b & ->). cbn [bind].
  eapply post_bind; [apply tries_inv, inv_set_ws; auto|]. intros s1 ((I1 & I2 & I3) & E1). apply post_ok.
  repeat split; auto.
Qed.
Lemma after_inv retry keep best s : (2 <= mode)%nat -> length (fst best) = n -> length (snd best) = (2 * n + m)%nat -> Inv s -> solved s -> s_ws s = None ->
  (keep = true -> (2 < mode)%nat \/ (s_du s = true -> length (s_x s) = (3 * n + m)%nat)) ->
  post (fun s' => Inv s') (after retry keep best s).
Proof.
  intros Hm B1 B2 I J E Hk. unfold Wst_Model.after.
  eapply post_bind with (P := fun s' => Inv s' /\ solved s' /\ s_ws s' = None).
  - destruct (s_kind s); [apply robust_inv; auto | apply robust_inv; auto |].
    destruct (Nat.ltb 0 retry); [apply cost_inv; auto | cbn; auto].
  - intros s1 (I1 & (J1 & J2) & E1). rewrite E1. destruct (negb (failed s1) && Nat.leb 2 mode)%bool; [|exact I1].
    unfold solver_getWarmStart. rewrite J1, J2, !Nat.leb_refl. cbn [andb bind post]. apply inv_set_ws; [exact I1|].
    split; cbn [w_x w_d]; rewrite firstn_length; lia.
Qed.
Lemma initial_inv retry keep best s : (2 <= mode)%nat -> length (fst best) = n -> length (snd best) = (2 * n + m)%nat -> Inv s ->
  (keep = true -> (2 < mode)%nat \/ (s_du s = true -> length (s_x s) = (3 * n + m)%nat)) ->
  post (fun s' => Inv s') (initialSolve retry keep best s).
Proof.
  intros Hm B1 B2 I Hk. unfold Wst_Model.initialSolve. replace (Nat.leb 2 mode) with true by (symmetry; apply Nat.leb_le; lia).
  assert (I0 : Inv (set_warm false (set_ws None s))) by (apply inv_set_warm, inv_set_ws; auto).
  eapply post_bind; [eapply call_inv; [apply get_start_cold; [apply I0 | reflexivity] | exact I0]|].
  intros s1 (I1 & F1 & J1 & _). destruct F1 as (Fx & _ & Fd & _ & Fw). apply after_inv; auto. intros K. rewrite Fx, Fd. cbn. auto.
Qed.
Lemma resolve_inv retry best s : (2 <= mode)%nat -> length (fst best) = n -> length (snd best) = (2 * n + m)%nat -> Inv s ->
  post (fun s' => Inv s') (resolve retry best s).
Proof.
  intros Hm B1 B2 I. unfold Wst_Model.resolve. destruct (s_ws s) as [w|] eqn:E; [|apply initial_inv; auto; discriminate].
  unfold valid. destruct (w_empty w) eqn:Ee; cbn [negb]; [apply initial_inv; auto; discriminate|].
  assert (Z : sized n m w) by (destruct I as (_ & _ & I3); rewrite E in I3; exact I3).
  rewrite (setW_ok w s Z Ee). cbn [bind].
  set (s1 := set_warm _ _).
  assert (L1 : length (s_x s1) = (3 * n + m)%nat) by (cbn [s1 set_warm set_ws s_x]; rewrite app_length; destruct Z as [-> ->]; lia).
  assert (I1 : Inv s1).
  { destruct I as (I1 & _ & _). repeat split; [exact I1 | right; right; exact L1]. }
  eapply post_bind; [eapply call_inv; [apply get_start_warm; [exact L1 | reflexivity | reflexivity] | exact I1]|].
  intros s2 (I2 & F2 & J2 & _). destruct F2 as (_ & _ & _ & _ & Fw). apply after_inv; auto. discriminate.
Qed.
Lemma run_inv ops : forall fresh s, (2 <= mode)%nat -> Forall (okop n m) ops -> keeps mode fresh ops ->
  (fresh = true -> s_du s = true -> length (s_x s) = (3 * n + m)%nat) -> Inv s -> post (fun s' => Inv s') (run ops s).
Proof.
  induction ops as [|o ops IH]; intros fresh s Hm Ho Hk Hf I; [exact I|]. inversion Ho as [|? ? Ho1 Ho2]; subst. cbn [Wst_Model.run].
  assert (NF : forall s' : st, false = true -> s_du s' = true -> length (s_x s') = (3 * n + m)%nat) by discriminate.
  destruct o as [r k b | r b | w | [x|] | d]; cbn [Wst_Model.step]; cbn [keeps okop] in *.
  - destruct Ho1 as [B1 B2], Hk as [Hk1 Hk2]. eapply post_bind; [apply initial_inv; auto|].
    + intros K. destruct (Hk1 K) as [-> | ?]; auto.
    + intros s1 I1. apply (IH false); auto.
  - destruct Ho1 as [B1 B2]. eapply post_bind; [apply resolve_inv; auto|]. intros s1 I1. apply (IH false); auto.
  - cbn [bind]. apply (IH fresh); auto.
    + intros F. unfold setWarmStart. destruct (Nat.leb 2 mode); cbn; auto.
    + unfold setWarmStart. replace (Nat.leb 2 mode) with true by (symmetry; apply Nat.leb_le; lia). apply inv_set_ws; [exact I|].
      destruct w as [w|]; [|exact Logic.I]. destruct (valid w); exact Ho1.
  - rewrite setxInit_ok by exact Ho1. cbn [bind]. apply (IH fresh); auto.
    + intros F D. cbn in *. rewrite app_length, skipn_length. rewrite (Hf F D). lia.
    + destruct I as (I1 & I2 & I3). repeat split; auto. right. cbn [set_init s_x]. apply shape_rand; auto.
  - cbn [bind]. apply (IH false); auto. apply inv_reset, I.
  - rewrite setDualsInit_ok by exact Ho1. cbn [bind]. apply (IH fresh); auto.
    + intros _ _. cbn [set_init s_x]. rewrite app_assoc, app_length, pad_length. lia.
    + destruct I as (I1 & I2 & I3). repeat split; auto. right; right. cbn [set_init s_x]. rewrite app_assoc, app_length, pad_length. lia.
Qed.

(** *** The log only grows. *)
Definition grows (s s' : st) : Prop := exists l, s_log s' = s_log s ++ l.
Lemma grows_refl s : grows s s. Proof. exists []; rewrite app_nil_r; reflexivity. Qed.
Lemma grows_trans a b c : grows a b -> grows b c -> grows a c.
Proof. intros [l H] [l' H']. exists (l ++ l'). rewrite H', H, app_assoc. reflexivity. Qed.
Lemma grows_started s s' k q : grows s s' -> started s k q -> started s' k q.
Proof. intros [l H] K. unfold started in *. rewrite H, nth_error_app1; [exact K|]. apply nth_error_Some. congruence. Qed.
Lemma call_grows s s' : call s = Ok s' -> grows s s'.
Proof. intros H. destruct (call_frame s s' H) as (_ & q & _ & L). exists [q]. exact L. Qed.
Lemma setx_log x s s' : setxInit x s = Ok s' -> s_log s' = s_log s.
Proof. unfold Wst_Model.setxInit; intros H; apply bind_ok in H; destruct H as ([] & _ & H); injection H as <-; reflexivity. Qed.
Lemma setd_log x s s' : setDualsInit x s = Ok s' -> s_log s' = s_log s.
Proof. unfold Wst_Model.setDualsInit; intros H; apply bind_ok in H; destruct H as ([] & _ & H); injection H as <-; reflexivity. Qed.
Lemma setW_log w s s' : setW w s = Ok s' -> s_log s' = s_log s.
Proof.
  unfold solver_setWarmStart. destruct w as [w|]; [|intros H; injection H as <-; reflexivity].
  destruct (w_empty w); [intros H; injection H as <-; reflexivity|]. intros H.
  apply bind_ok in H; destruct H as (s1 & H1 & H). apply bind_ok in H; destruct H as ([] & _ & H). apply bind_ok in H; destruct H as ([] & _ & H).
  apply setx_log in H. rewrite H. destruct (Nat.ltb 0 (length (w_d w))).
  - apply bind_ok in H1; destruct H1 as (s2 & H1 & H2). injection H2 as <-. cbn. eapply setd_log; eauto.
  - injection H1 as <-. reflexivity.
Qed.
Lemma tries_grows k : forall s s', tries k s = Ok s' -> grows s s'.
Proof.
  induction k; cbn [Wst_Model.tries]; intros s s' H; [injection H as <-; apply grows_refl|].
  rewrite random_ok in H; cbn [bind] in H. apply bind_ok in H; destruct H as (s1 & H1 & H).
  eapply grows_trans; [|apply IHk, H]. apply call_grows in H1. destruct H1 as [l H1]. exists l. exact H1.
Qed.
Lemma again_grows k : forall s b s', again k s = Ok (b, s') -> grows s s'.
Proof.
  induction k; cbn [Wst_Model.again]; intros s b s' H; [injection H as _ <-; apply grows_refl|].
  rewrite random_ok in H; cbn [bind] in H. apply bind_ok in H; destruct H as (s1 & H1 & H).
  assert (G : grows s s1) by (apply call_grows in H1; destruct H1 as [l H1]; exists l; exact H1).
  destruct (failed s1); [|injection H as _ <-; exact G]. eapply grows_trans; [exact G | eapply IHk, H].
Qed.
Lemma robust_grows k s s' : robust k s = Ok s' -> grows s s'.
Proof.
  unfold Wst_Model.robust; intros H. apply bind_ok in H; destruct H as (b & _ & H). apply bind_ok in H; destruct H as (s1 & H1 & H).
  apply bind_ok in H; destruct H as ([sv s2] & H2 & H). apply bind_ok in H; destruct H as (s3 & H3 & H).
  destruct (sv || pretend)%bool; [|discriminate]. injection H as <-.
  apply call_grows in H1. assert (G1 : grows s s1) by (destruct H1 as [l H1]; exists l; exact H1).
  assert (G2 : grows s1 s2) by (destruct (failed s1); [eapply again_grows, H2 | injection H2 as _ <-; apply grows_refl]).
  eapply grows_trans; [exact G1 | eapply grows_trans; [exact G2|]]. exists []. rewrite app_nil_r.
  destruct (Nat.ltb mode 2); [apply setW_log in H3; rewrite H3 | injection H3 as <-]; destruct sv; reflexivity.
Qed.
Lemma cost_grows k keep best s s' : cost k keep best s = Ok s' -> grows s s'.
Proof.
  unfold Wst_Model.cost; intros H. apply bind_ok in H; destruct H as (b & _ & H). apply bind_ok in H; destruct H as (s1 & H1 & H).
  apply tries_grows in H1. assert (G1 : grows s s1) by (destruct H1 as [l H1]; exists l; exact H1).
  eapply grows_trans; [exact G1|]. exists []. rewrite app_nil_r.
  destruct (Nat.ltb mode 2 && keep)%bool; [apply setW_log in H; rewrite H | injection H as <-]; reflexivity.
Qed.
Lemma after_grows retry keep best s s' : after retry keep best s = Ok s' -> grows s s'.
Proof.
  unfold Wst_Model.after; intros H. apply bind_ok in H; destruct H as (s1 & H1 & H).
  assert (G1 : grows s s1).
  { destruct (s_kind s); try (eapply robust_grows, H1). destruct (Nat.ltb 0 retry); [eapply cost_grows, H1 | injection H1 as <-; apply grows_refl]. }
  eapply grows_trans; [exact G1|].
  destruct (s_ws s1); [injection H as <-; apply grows_refl|]. destruct (negb (failed s1) && Nat.leb 2 mode)%bool; [|injection H as <-; apply grows_refl].
  apply bind_ok in H; destruct H as (w & _ & H). injection H as <-. exists []. rewrite app_nil_r. reflexivity.
Qed.

(** *** C191 *)
Lemma resolve_starts retry best s s' w : s_ws s = Some w -> w_empty w = false -> sized n m w -> resolve retry best s = Ok s' ->
  started s' (length (s_log s)) (mkStart (w_x w) (Some (w_d w))).
Proof.
  intros E Ee Z H. unfold Wst_Model.resolve in H. rewrite E in H. unfold valid in H. rewrite Ee in H. cbn [negb] in H.
  rewrite (setW_ok w s Z Ee) in H. cbn [bind] in H. apply bind_ok in H; destruct H as (s1 & H1 & H).
  eapply grows_started; [eapply after_grows, H|]. destruct (call_frame _ _ H1) as (_ & q & G & L).
  rewrite get_start_warm in G; [|cbn [set_warm set_ws s_x]; rewrite app_length; destruct Z as [-> ->]; lia | reflexivity | reflexivity].
  injection G as <-. unfold started. rewrite L. cbn [set_warm set_ws s_log s_x]. rewrite nth_error_app2, Nat.sub_diag by lia.
  cbn [nth_error]. destruct Z as [Zx Zd].
  rewrite firstn_app, skipn_app, Zx, Nat.sub_diag, firstn_O, skipn_O, app_nil_r, firstn_all2, skipn_all2 by lia. reflexivity.
Qed.
Lemma after_ws retry keep best s s' : (2 <= mode)%nat -> after retry keep best s = Ok s' -> failed s' = false -> s_ws s = None ->
  exists w, s_ws s' = Some w /\ w = mkWs false (firstn n (s_xs s')) (firstn (2 * n + m) (s_ds s')) /\ (n <= length (s_xs s'))%nat /\ (2 * n + m <= length (s_ds s'))%nat.
Proof.
  intros Hm H Hf Hw. unfold Wst_Model.after in H. apply bind_ok in H; destruct H as (s1 & H1 & H).
  assert (E1 : s_ws s1 = None).
  { destruct (s_kind s).
    1,2: unfold Wst_Model.robust in H1; replace (Nat.ltb mode 2) with false in H1 by (symmetry; apply Nat.ltb_ge; lia); cbn [bind] in H1;
      apply bind_ok in H1; destruct H1 as (s2 & H2 & H1); apply bind_ok in H1; destruct H1 as ([sv s3] & H3 & H1);
      assert (E3 : s_ws s3 = None); [|destruct (sv || pretend)%bool; [|discriminate]; injection H1 as <-; destruct sv; exact E3].
    1,2: apply call_frame in H2; destruct H2 as ((_ & _ & _ & _ & F) & _); destruct (failed s2); [|injection H3 as _ <-; rewrite F; reflexivity];
      cbn in F; clear - F H3 Hn Hs Hu; revert s2 F H3; induction ru as [|k IH]; cbn [Wst_Model.again]; intros s2 F H3; [injection H3 as _ <-; exact F|];
      rewrite random_ok in H3; cbn [bind] in H3; apply bind_ok in H3; destruct H3 as (s4 & H4 & H3); apply call_frame in H4;
      destruct H4 as ((_ & _ & _ & _ & F4) & _); cbn in F4; rewrite F in F4; destruct (failed s4); [eapply IH; eauto | injection H3 as _ <-; exact F4].
    destruct (Nat.ltb 0 retry); [|injection H1 as <-; exact Hw].
    unfold Wst_Model.cost in H1. replace (Nat.ltb mode 2) with false in H1 by (symmetry; apply Nat.ltb_ge; lia). cbn [andb] in H1.
    apply bind_ok in H1; destruct H1 as (b & _ & H1). apply bind_ok in H1; destruct H1 as (s2 & H2 & H1). injection H1 as <-. cbn.
    assert (G : forall k a c, tries k a = Ok c -> s_ws c = s_ws a); [|apply (G _ _ _ H2)].
    { clear - Hn Hs Hu. induction k; cbn [Wst_Model.tries]; intros a c H; [injection H as <-; reflexivity|].
      rewrite random_ok in H; cbn [bind] in H. apply bind_ok in H; destruct H as (a1 & H1 & H). rewrite (IHk _ _ H).
      apply call_frame in H1. destruct H1 as ((_ & _ & _ & _ & ->) & _). reflexivity. } }
  rewrite E1 in H. destruct (negb (failed s1) && Nat.leb 2 mode)%bool eqn:E.
  - apply bind_ok in H; destruct H as (w & Hg & H). injection H as <-. cbn. unfold solver_getWarmStart in Hg.
    destruct (Nat.leb n (length (s_xs s1)) && Nat.leb (2 * n + m) (length (s_ds s1)))%bool eqn:L; [|discriminate]. injection Hg as <-.
    apply andb_prop in L. destruct L as [L1 L2]. apply Nat.leb_le in L1, L2. eauto.
  - injection H as <-. rewrite Hf in E. cbn [negb andb] in E. apply Nat.leb_gt in E. lia.
Qed.
Lemma solve_ws o s s' : (2 <= mode)%nat -> (exists r k b, o = OInit r k b) \/ (exists r b, o = OResolve r b) -> step s o = Ok s' -> failed s' = false ->
  exists w, s_ws s' = Some w /\ w = mkWs false (firstn n (s_xs s')) (firstn (2 * n + m) (s_ds s')) /\ (n <= length (s_xs s'))%nat /\ (2 * n + m <= length (s_ds s'))%nat.
Proof.
  intros Hm Ho H Hf.
  assert (HI : forall r k b, initialSolve r k b s = Ok s' ->
    exists w, s_ws s' = Some w /\ w = mkWs false (firstn n (s_xs s')) (firstn (2 * n + m) (s_ds s')) /\ (n <= length (s_xs s'))%nat /\ (2 * n + m <= length (s_ds s'))%nat).
  { intros r k b HH. unfold Wst_Model.initialSolve in HH. apply bind_ok in HH; destruct HH as (s1 & H1 & HH). eapply after_ws; eauto.
    apply call_frame in H1. destruct H1 as ((_ & _ & _ & _ & ->) & _). destruct (Nat.leb 2 mode); reflexivity. }
  destruct Ho as [(r & k & b & ->) | (r & b & ->)]; cbn [Wst_Model.step] in H; [eauto|].
  unfold Wst_Model.resolve in H. destruct (s_ws s) as [w|]; [|eauto]. destruct (valid w); [|eauto].
  apply bind_ok in H; destruct H as (s1 & H1 & H). apply bind_ok in H; destruct H as (s2 & H2 & H). eapply after_ws; eauto.
  apply call_frame in H2. destruct H2 as ((_ & _ & _ & _ & ->) & _). reflexivity.
Qed.
(** *** C192 *)
Lemma used_complete s : complete n m s -> used s = Ok (Some (mkWs false (firstn n (s_x s)) (skipn n (s_x s)))).
Proof.
  intros (L & D & A). unfold Wst_Model.used. rewrite A, D, L, Nat.leb_refl. cbn [negb orb]. do 3 f_equal.
  apply firstn_all2. rewrite skipn_length. lia.
Qed.
Lemma robust_keeps k s s' : (mode < 2)%nat -> complete n m s -> robust k s = Ok s' -> s_x s' = s_x s /\ s_du s' = true /\ s_warm s' = true.
Proof.
  intros Hm C H. unfold Wst_Model.robust in H. replace (Nat.ltb mode 2) with true in H by (symmetry; apply Nat.ltb_lt; lia).
  change (used (set_ws None s)) with (used s) in H. rewrite (used_complete s C) in H. cbn [bind] in H.
  apply bind_ok in H; destruct H as (s1 & H1 & H). apply bind_ok in H; destruct H as ([sv s2] & H2 & H).
  rewrite setW_ok in H; [|split; cbn [w_x w_d]; rewrite ?firstn_length, ?skipn_length; destruct C as (-> & _); lia | reflexivity].
  cbn [bind] in H. destruct (sv || pretend)%bool; [|discriminate]. injection H as <-. cbn. rewrite firstn_skipn. auto.
Qed.
Lemma again_x k : forall s b s', again k s = Ok (b, s') -> s_x s = [] \/ (exists j, s_x s = rnd j) ->
  (s_x s' = [] \/ exists j, s_x s' = rnd j) /\ s_du s' = s_du s /\ (b = true -> failed s' = false).
Proof.
  induction k; cbn [Wst_Model.again]; intros s b s' H X; [injection H as <- <-; repeat split; auto; discriminate|].
  rewrite random_ok in H; cbn [bind] in H. apply bind_ok in H; destruct H as (s1 & H1 & H). apply call_frame in H1. destruct H1 as ((Fx & _ & Fd & _) & _).
  cbn in Fx, Fd.
  assert (X1 : exists j, s_x s1 = rnd j).
  { exists (length (s_log s)). rewrite Fx. rewrite skipn_all2; [apply app_nil_r|]. destruct X as [-> | [j ->]]; [cbn; lia|]. rewrite (proj1 Hs). lia. }
  destruct (failed s1) eqn:Ef.
  - destruct (IHk _ _ _ H (or_intror X1)) as (P1 & P2 & P3). rewrite <- Fd. auto.
  - injection H as <- <-. auto.
Qed.
Lemma robust_lost k s s' : (mode < 2)%nat -> s_du s = false -> robust k s = Ok s' ->
  (s_x s' = [] \/ exists j, s_x s' = rnd j) /\ s_du s' = false /\ (failed s' = false -> s_warm s' = true).
Proof.
  intros Hm D H. unfold Wst_Model.robust in H. replace (Nat.ltb mode 2) with true in H by (symmetry; apply Nat.ltb_lt; lia).
  unfold Wst_Model.used in H. cbn [set_ws s_alloc s_du] in H. rewrite D in H. rewrite Bool.orb_true_r in H. cbn [bind] in H.
  apply bind_ok in H; destruct H as (s1 & H1 & H). apply call_frame in H1. destruct H1 as ((Fx & _ & Fd & _) & _). cbn in Fx, Fd.
  apply bind_ok in H; destruct H as ([sv s2] & H2 & H). cbn [solver_setWarmStart bind] in H. destruct (sv || pretend)%bool eqn:E; [|discriminate]. injection H as <-.
  assert (P : (s_x s2 = [] \/ exists j, s_x s2 = rnd j) /\ s_du s2 = s_du s1 /\ (failed s2 = false -> sv = true)).
  { destruct (failed s1) eqn:Ef.
    - destruct (again_x _ _ _ _ H2 (or_introl Fx)) as (P1 & P2 & P3). repeat split; auto. intros F2. destruct sv; [reflexivity|].
      exfalso. clear - H2 Ef F2 Hn Hs Hu. revert s1 Ef H2. induction k; cbn [Wst_Model.again]; intros s1 Ef H2; [injection H2 as <-; congruence|].
      rewrite random_ok in H2; cbn [bind] in H2. apply bind_ok in H2; destruct H2 as (s3 & H3 & H2). destruct (failed s3) eqn:E3; [eapply IHk; eauto | discriminate].
    - injection H2 as <- <-. auto. }
  destruct P as (P1 & P2 & P3). rewrite Fd, D in P2. destruct sv; cbn; repeat split; auto. intros F2. apply P3 in F2. discriminate.
Qed.
(** *** C193 *)
Lemma cost_keeps k best s s' : (mode < 2)%nat -> complete n m s -> cost k true best s = Ok s' -> s_x s' = s_x s /\ s_du s' = true /\ s_warm s' = true.
Proof.
  intros Hm C H. unfold Wst_Model.cost in H. replace (Nat.ltb mode 2) with true in H by (symmetry; apply Nat.ltb_lt; lia).
  replace (Nat.leb mode 2) with true in H by (symmetry; apply Nat.leb_le; lia). cbn [andb] in H.
  change (used (set_ws None s)) with (used s) in H. rewrite (used_complete s C) in H. cbn [bind] in H.
  apply bind_ok in H; destruct H as (s1 & H1 & H).
  rewrite setW_ok in H; [|split; cbn [w_x w_d]; rewrite ?firstn_length, ?skipn_length; destruct C as (-> & _); lia | reflexivity].
  injection H as <-. cbn. rewrite firstn_skipn. auto.
Qed.
Lemma tries_last k : forall s s', tries k s = Ok s' -> (0 < k)%nat ->
  firstn n (s_x s') = rnd (pred (length (s_log s'))) /\ s_warm s' = false /\ s_du s' = s_du s /\ length (s_log s') = (length (s_log s) + k)%nat.
Proof.
  induction k; cbn [Wst_Model.tries]; intros s s' H K; [lia|].
  rewrite random_ok in H; cbn [bind] in H. apply bind_ok in H; destruct H as (s1 & H1 & H). apply call_frame in H1.
  destruct H1 as ((Fx & _ & Fd & Fw & _) & q & _ & L). cbn in Fx, Fd, Fw, L. destruct k.
  - injection H as <-. rewrite L, app_length, Fx, Fw, Fd. cbn [length]. rewrite Nat.add_1_r. cbn [pred].
    rewrite firstn_app, (proj1 Hs), Nat.sub_diag, firstn_O, app_nil_r, firstn_all2 by (rewrite (proj1 Hs); lia). repeat split; lia.
  - destruct (IHk _ _ H ltac:(lia)) as (P1 & P2 & P3 & P4). rewrite P3, Fd, P4, L, app_length. cbn [length]. repeat split; auto; try lia.
    rewrite P1. rewrite P4, L, app_length. reflexivity.
Qed.
Lemma cost_last k keep best s s' : (0 < k)%nat -> (mode < 2)%nat /\ (keep = false \/ s_du s = false) \/ (2 <= mode)%nat -> cost k keep best s = Ok s' ->
  firstn n (s_x s') = rnd (pred (length (s_log s'))) /\ s_warm s' = false /\ length (s_log s') = (length (s_log s) + k)%nat.
Proof.
  intros K Hc H. unfold Wst_Model.cost in H. apply bind_ok in H; destruct H as (b & Hb & H). apply bind_ok in H; destruct H as (s1 & H1 & H).
  destruct (tries_last _ _ _ H1 K) as (P1 & P2 & _ & P3). cbn [set_ws s_log] in P3.
  destruct (Nat.ltb mode 2 && keep)%bool eqn:E.
  - apply andb_prop in E. destruct E as [E ->]. apply Nat.ltb_lt in E. destruct Hc as [[_ [? | D]] | ?]; [discriminate | | lia].
    replace (Nat.leb mode 2) with true in Hb by (symmetry; apply Nat.leb_le; lia). cbn [andb] in Hb. unfold Wst_Model.used in Hb. cbn [set_ws s_alloc s_du] in Hb.
    rewrite D, Bool.orb_true_r in Hb. injection Hb as <-. cbn [solver_setWarmStart] in H. injection H as <-. cbn. auto.
  - injection H as <-. cbn. auto.
Qed.
(** *** C194, refused *)
Lemma refused retry keep best s s' : (mode < 2)%nat -> s_warm s = true -> s_du s = false -> shape s -> initialSolve retry keep best s = Ok s' ->
  nth_error (s_log s') (length (s_log s)) = Some None /\ started s' (S (length (s_log s))) (mkStart (firstn n user) None) /\
  (failed s' = false -> s_warm s' = true /\ s_du s' = false).
Proof.
  intros Hm W D Sh H. unfold Wst_Model.initialSolve in H. replace (Nat.leb 2 mode) with false in H by (symmetry; apply Nat.leb_gt; lia).
  assert (G : get_start n m user (set_ws None s) = Ok None).
  { unfold get_start; cbn [set_ws s_x s_warm s_du]. rewrite W, D. destruct (s_x s) as [|a l] eqn:E; [rewrite chk_true by (apply Nat.leb_le; lia); reflexivity|].
    replace (Nat.leb n (length (a :: l))) with true; [reflexivity|]. symmetry; apply Nat.leb_le. rewrite <- E.
    destruct Sh as [Sh | [Sh | Sh]]; [rewrite E in Sh; discriminate | lia | lia]. }
  unfold Wst_Model.call in H. rewrite G in H. cbn [bind] in H. unfold Wst_Model.after in H. cbn [s_kind set_ws s_log s_x s_alloc s_du s_warm s_xs s_ds s_ws] in H.
  apply bind_ok in H; destruct H as (s1 & H1 & H). replace (Nat.leb 2 mode) with false in H by (symmetry; apply Nat.leb_gt; lia). rewrite Bool.andb_false_r in H.
  assert (E' : s' = s1) by (destruct (s_ws s1); injection H as <-; reflexivity). subst s1. clear H.
  set (sf := mkSt _ _ _ _ _ _ Failed _ _) in H1.
  destruct (robust_lost _ sf _ Hm D H1) as (_ & P2 & P3).
  assert (Gr : grows sf s') by (eapply robust_grows, H1).
  split; [|split; [|auto]].
  - destruct Gr as [l ->]. cbn [sf s_log]. rewrite <- app_assoc, nth_error_app2, Nat.sub_diag by lia. reflexivity.
  - unfold Wst_Model.robust in H1. replace (Nat.ltb mode 2) with true in H1 by (symmetry; apply Nat.ltb_lt; lia). apply bind_ok in H1; destruct H1 as (b & _ & H1).
    apply bind_ok in H1; destruct H1 as (s2 & H2 & H1). apply call_frame in H2. destruct H2 as (_ & q & Gq & L2).
    rewrite get_start_cold in Gq; [|left; reflexivity | reflexivity]. injection Gq as <-.
    assert (G2 : grows s2 s').
    { apply bind_ok in H1; destruct H1 as ([sv s3] & H3 & H1). apply bind_ok in H1; destruct H1 as (s4 & H4 & H1). destruct (sv || pretend)%bool; [|discriminate].
      injection H1 as <-. apply setW_log in H4. eapply grows_trans with s3.
      - destruct (failed s2); [eapply again_grows, H3 | injection H3 as _ <-; apply grows_refl].
      - exists []. rewrite app_nil_r, H4. destruct sv; reflexivity. }
    eapply grows_started; [exact G2|]. unfold started. rewrite L2. cbn [reset set_init set_warm set_ws sf s_log].
    rewrite nth_error_app2; rewrite app_length; cbn [length]; [|lia]. replace (S (length (s_log s)) - (length (s_log s) + 1))%nat with 0%nat by lia. reflexivity.
Qed.
(** *** C195 *)
Lemma setW_bad w s : ~ sized n m w -> w_empty w = false -> setW (Some w) s = AssertFail.
Proof.
  intros Z Ee. unfold solver_setWarmStart. rewrite Ee. destruct (Nat.ltb 0 (length (w_d w))) eqn:E.
  - destruct (Nat.eq_dec (length (w_d w)) (2 * n + m)) as [Ed|Ed].
    + rewrite setDualsInit_ok by exact Ed. cbn [bind]. destruct (Nat.eqb n (length (w_x w))) eqn:Ex; [|reflexivity]. apply Nat.eqb_eq in Ex.
      exfalso; apply Z; split; congruence.
    + unfold Wst_Model.setDualsInit. replace (Nat.eqb (length (w_d w)) (n * 2 + m)) with false by (symmetry; apply Nat.eqb_neq; lia). reflexivity.
  - apply Nat.ltb_ge in E. cbn [bind]. destruct (Nat.eqb n (length (w_x w))); [|reflexivity]. cbn [chk bind].
    replace (Nat.eqb (2 * n + m) (length (w_d w))) with false by (symmetry; apply Nat.eqb_neq; lia). reflexivity.
Qed.
Lemma resolve_bad w retry best s : (2 <= mode)%nat -> ~ sized n m w -> resolve retry best (setWarmStart mode (Some w) s) = AssertFail.
Proof.
  intros Hm Z. unfold setWarmStart. replace (Nat.leb 2 mode) with true by (symmetry; apply Nat.leb_le; lia).
  unfold Wst_Model.resolve, valid. cbn [set_ws s_ws]. destruct (w_empty w) eqn:Ee; cbn [negb w_empty].
  - rewrite setW_bad; [reflexivity | exact Z | reflexivity].
  - rewrite Ee. cbn [negb]. rewrite setW_bad; [reflexivity | exact Z | exact Ee].
Qed.
End Problem.

(** *** C197 *)
Lemma Qltb_cases a b : Qltb a b = true /\ a < b \/ Qltb a b = false /\ ~ a < b.
Proof. destruct (Qltb a b) eqn:E; [left; split; [reflexivity | apply Qltb_lt; exact E] | right; split; [reflexivity|]]. intros H. apply Qltb_lt in H. congruence. Qed.
Lemma rd_app {A} (a b : list A) k : rd (length a + k) (a ++ b) = rd k b.
Proof. unfold rd. rewrite nth_error_app2 by lia. replace (length a + k - length a)%nat with k by lia. reflexivity. Qed.
Lemma rd_mid {A} (a : list A) x b : rd (length a) (a ++ x :: b) = Ok x.
Proof. rewrite <- (Nat.add_0_r (length a)) at 1. rewrite rd_app. reflexivity. Qed.
Lemma walk_ok low high : forall prev new x zl zu, length x = length prev -> length zl = length prev -> length zu = length prev ->
  Forall2 (same_pattern low high) prev new -> forall p ax al au,
  t_x p = ax ++ pack_x prev x -> t_zl p = al ++ pack_l low prev zl -> t_zu p = au ++ pack_u high prev zu ->
  walk low high prev new p (length ax) (length al) (length au) = Ok (pack_x new x, pack_l low new zl, pack_u high new zu).
Proof.
  induction prev as [|[pl pu] prev IH]; intros new x zl zu Lx Ll Lu F p ax al au Hx Hl Hu.
  - inversion F; subst. destruct x, zl, zu; try discriminate. reflexivity.
  - inversion F as [|? [l u] ? new' Hp F']; subst. destruct x as [|x0 x], zl as [|zl0 zl], zu as [|zu0 zu]; try discriminate. cbn in Lx, Ll, Lu.
    injection Lx as Lx; injection Ll as Ll; injection Lu as Lu. cbn [walk pack_x pack_l pack_u] in *. destruct Hp as [H1 H2]. cbn [fst snd] in *.
    destruct (Qltb_cases l u) as [[E A] | [E A]]; rewrite E.
    + destruct (H1 A) as (B & Cl & Cu). destruct (Qltb_cases pl pu) as [[Ep _] | [_ Ep]]; [|contradiction]. rewrite Ep in Hx, Hl, Hu. cbn [andb app] in *.
      rewrite Hx, rd_mid. cbn [bind].
      assert (RL : exists v, (if Qltb low l then do z <- rd (length al) (t_zl p); Ok [z] else Ok []) = Ok v /\ v = (if Qltb low l then [zl0] else []) /\
                   t_zl p = (al ++ v) ++ pack_l low prev zl).
      { destruct (Qltb_cases low l) as [[D D'] | [D D']]; rewrite D.
        - assert (D2 : Qltb low pl = true) by (apply Qltb_lt; tauto). rewrite D2 in Hl. cbn [app] in Hl. rewrite Hl, rd_mid. exists [zl0]. rewrite <- app_assoc. auto.
        - destruct (Qltb_cases low pl) as [[D2 D2'] | [D2 _]]; [tauto|]. rewrite D2 in Hl. exists []. rewrite app_nil_r. auto. }
      assert (RU : exists v, (if Qltb u high then do z <- rd (length au) (t_zu p); Ok [z] else Ok []) = Ok v /\ v = (if Qltb u high then [zu0] else []) /\
                   t_zu p = (au ++ v) ++ pack_u high prev zu).
      { destruct (Qltb_cases u high) as [[D D'] | [D D']]; rewrite D.
        - assert (D2 : Qltb pu high = true) by (apply Qltb_lt; tauto). rewrite D2 in Hu. cbn [app] in Hu. rewrite Hu, rd_mid. exists [zu0]. rewrite <- app_assoc. auto.
        - destruct (Qltb_cases pu high) as [[D2 D2'] | [D2 _]]; [tauto|]. rewrite D2 in Hu. exists []. rewrite app_nil_r. auto. }
      destruct RL as (vl & -> & Vl & Hl'). destruct RU as (vu & -> & Vu & Hu'). cbn [bind].
      replace (S (length ax)) with (length (ax ++ [x0])) by (rewrite app_length; cbn; lia).
      rewrite <- !app_length.
      rewrite (IH new' x zl zu Lx Ll Lu F' p (ax ++ [x0]) (al ++ vl) (au ++ vu)); [|rewrite <- app_assoc; exact Hx | exact Hl' | exact Hu'].
      cbn [bind fst snd]. rewrite Vl, Vu. reflexivity.
    + destruct (Qltb_cases pl pu) as [[Ep B] | [Ep B]]; rewrite Ep in *; cbn [andb app] in *.
      * destruct (H2 A B) as [D1 D2]. apply Qltb_lt in D1, D2. rewrite D1 in Hl. rewrite D2 in Hu. cbn [app] in *.
        replace (S (length ax)) with (length (ax ++ [x0])) by (rewrite app_length; cbn; lia).
        replace (S (length al)) with (length (al ++ [zl0])) by (rewrite app_length; cbn; lia).
        replace (S (length au)) with (length (au ++ [zu0])) by (rewrite app_length; cbn; lia).
        apply IH; auto; rewrite <- app_assoc; assumption.
      * apply IH; auto.
Qed.
Lemma walk_x low high : forall prev new x, length x = length prev -> Forall2 (fun a b : Q * Q => fst b < snd b -> fst a < snd a) prev new -> forall p ax il iu r,
  t_x p = ax ++ pack_x prev x -> walk low high prev new p (length ax) il iu = Ok r -> fst (fst r) = pack_x new x.
Proof.
  induction prev as [|[pl pu] prev IH]; intros new x Lx F p ax il iu r Hx H.
  - inversion F; subst. destruct x; try discriminate. injection H as <-. reflexivity.
  - inversion F as [|? [l u] ? new' Hp F']; subst. destruct x as [|x0 x]; try discriminate. injection Lx as Lx. cbn [walk pack_x] in *. cbn [fst snd] in *.
    destruct (Qltb_cases l u) as [[E A] | [E A]]; rewrite E in *.
    + destruct (Qltb_cases pl pu) as [[Ep _] | [_ Ep]]; [|tauto]. rewrite Ep in Hx. cbn [app] in *. rewrite Hx, rd_mid in H. cbn [bind] in H.
      apply bind_ok in H; destruct H as (vl & _ & H). apply bind_ok in H; destruct H as (vu & _ & H). apply bind_ok in H; destruct H as (r' & H' & H). injection H as <-. cbn.
      f_equal. replace (S (length ax)) with (length (ax ++ [x0])) in H' by (rewrite app_length; cbn; lia).
      eapply IH; [exact Lx | exact F' | | exact H']. rewrite <- app_assoc. exact Hx.
    + destruct (Qltb_cases pl pu) as [[Ep B] | [Ep B]]; rewrite Ep in *; cbn [app] in *.
      * replace (S (length ax)) with (length (ax ++ [x0])) in H by (rewrite app_length; cbn; lia). eapply IH; [exact Lx | exact F' | | exact H]. rewrite <- app_assoc. exact Hx.
      * eapply IH; eauto.
Qed.
Lemma put_full v d : length d = length v -> put v d = Ok v.
Proof. intros E. unfold put. rewrite E, Nat.leb_refl, skipn_all2 by lia. rewrite app_nil_r. reflexivity. Qed.
Lemma pack_x_len b : forall v w, length v = length b -> length w = length b -> length (pack_x b v) = length (pack_x b w).
Proof. induction b as [|[l u] b IH]; intros [|x v] [|y w] E1 E2; try discriminate; [reflexivity|]. cbn. rewrite !app_length. f_equal; [destruct (Qltb l u); reflexivity | apply IH; cbn in *; lia]. Qed.
Lemma pack_l_len low b : forall v w, length v = length b -> length w = length b -> length (pack_l low b v) = length (pack_l low b w).
Proof. induction b as [|[l u] b IH]; intros [|x v] [|y w] E1 E2; try discriminate; [reflexivity|]. cbn. rewrite !app_length. f_equal; [destruct (Qltb l u && Qltb low l)%bool; reflexivity | apply IH; cbn in *; lia]. Qed.
Lemma pack_u_len high b : forall v w, length v = length b -> length w = length b -> length (pack_u high b v) = length (pack_u high b w).
Proof. induction b as [|[l u] b IH]; intros [|x v] [|y w] E1 E2; try discriminate; [reflexivity|]. cbn. rewrite !app_length. f_equal; [destruct (Qltb l u && Qltb u high)%bool; reflexivity | apply IH; cbn in *; lia]. Qed.
Lemma warm_ok low high prev new x zl zu p dst : length x = length prev -> length zl = length prev -> length zu = length prev ->
  Forall2 (same_pattern low high) prev new -> holds low high prev x zl zu p -> room low high new p dst ->
  warmStartIterate low high [p] prev new dst =
    Ok (Some (mkIt (pack_x new x) (pack_l low new zl) (pack_u high new zu) (t_s p) (t_yc p) (t_yd p) (t_vl p) (t_vu p))).
Proof.
  intros Lx Ll Lu F (Hx & Hl & Hu) (R1 & R2 & R3 & R4 & R5 & R5' & R6 & R7 & R8).
  assert (LN : length new = length prev) by (clear - F; induction F; cbn; congruence).
  unfold warmStartIterate. rewrite LN, Nat.eqb_refl. cbn [chk bind length Nat.sub rd nth_error].
  pose proof (walk_ok low high prev new x zl zu Lx Ll Lu F p [] [] [] Hx Hl Hu) as W. cbn [length] in W. rewrite W. cbn [bind fst snd].
  rewrite firstn_all2 by lia.
  rewrite !put_full; [reflexivity | try congruence ..].
  - rewrite R3. apply pack_u_len; rewrite ?repeat_length; lia.
  - rewrite R2. apply pack_l_len; rewrite ?repeat_length; lia.
  - rewrite R1. apply pack_x_len; rewrite ?repeat_length; lia.
Qed.
Lemma warm_x low high prev new x p dst i : length x = length prev ->
  Forall2 (fun a b : Q * Q => fst b < snd b -> fst a < snd a) prev new -> t_x p = pack_x prev x ->
  length (t_x dst) = length (pack_x new (repeat 0 (length new))) ->
  warmStartIterate low high [p] prev new dst = Ok (Some i) -> t_x i = pack_x new x.
Proof.
  intros Lx F Hx R H. assert (LN : length new = length prev) by (clear - F; induction F; cbn; congruence).
  unfold warmStartIterate in H. rewrite LN, Nat.eqb_refl in H. cbn [chk bind length Nat.sub rd nth_error] in H.
  apply bind_ok in H; destruct H as (r & Hr & H). pose proof (walk_x low high prev new x Lx F p [] 0 0 r Hx Hr) as W. rewrite W in H.
  rewrite put_full in H; [|rewrite R; apply pack_x_len; rewrite ?repeat_length; lia]. cbn [bind] in H.
  repeat (apply bind_ok in H; destruct H as (? & _ & H)). injection H as <-. reflexivity.
Qed.

(** *** C198 *)
Lemma stored_app several a b : stored several (a ++ [b]) = update several (fst b) (snd b) (stored several a).
Proof. unfold stored. rewrite fold_left_app. reflexivity. Qed.
Lemma regular_app a b : regular (a ++ [b]) = regular a ++ (if fst b then [snd b] else []).
Proof. unfold regular. rewrite filter_app, map_app. cbn. destruct (fst b); reflexivity. Qed.
Lemma stored_several l : stored true l = regular l.
Proof.
  induction l as [|b l IH] using rev_ind; [reflexivity|]. rewrite stored_app, regular_app, IH. unfold update. destruct (fst b); cbn [negb]; [|rewrite app_nil_r; reflexivity].
  destruct (regular l); reflexivity.
Qed.
Lemma stored_one l d : stored false l = match regular l with [] => [] | _ => [last (regular l) d] end.
Proof.
  induction l as [|b l IH] using rev_ind; [reflexivity|]. rewrite stored_app, regular_app, IH. unfold update. destruct (fst b); cbn [negb]; [|rewrite app_nil_r; reflexivity].
  rewrite last_last. destruct (regular l); reflexivity.
Qed.
