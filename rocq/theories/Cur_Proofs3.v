From Verif Require Import Base Arr Nlp Cur_Model Cur_Spec Cur_Proofs Cur_Proofs2.
#[local] Open Scope Q_scope.

(** ** The loops *)
Lemma rd_ok {A} i (l : list A) d : (i < length l)%nat -> rd i l = Ok (nth i l d).
Proof.
  intros H. unfold rd. destruct (nth_error l i) as [v|] eqn:E; [|apply nth_error_None in E; lia].
  f_equal. symmetry. apply nth_error_nth, E.
Qed.
Lemma jprod_ok keep kb d : forall st jv acc, length jv = length st ->
  Forall (fun rc => fst rc < length acc /\ snd rc < length d)%nat st ->
  (forall r c, In (r, c) st -> keep r c = Ok (kb (r, c))) ->
  exists acc', jprod keep st jv d acc = Ok acc' /\ length acc' = length acc /\
  forall r, nth r acc' 0 == nth r acc 0 +
    qsum (map (fun t : trip => if (Nat.eqb (fst (fst t)) r && kb (fst t))%bool then snd t * at_ d (snd (fst t)) else 0) (combine st jv)).
Proof.
  induction st as [|[r c] st IH]; intros jv acc L F K; destruct jv as [|v jv]; cbn in L; try discriminate; cbn [jprod combine map qsum].
  - exists acc. repeat split. intros r. ring.
  - pose proof (Forall_inv F) as [Hr Hc]. apply Forall_inv_tail in F. cbn [fst snd] in *.
    rewrite (K r c) by (left; reflexivity). cbn [bind].
    assert (K' : forall a b, In (a, b) st -> keep a b = Ok (kb (a, b))) by (intros; apply K; right; assumption).
    destruct (kb (r, c)) eqn:B.
    + rewrite (rd_ok r acc 0) by exact Hr. cbn [bind]. rewrite (rd_ok c d 0) by exact Hc. cbn [bind].
      rewrite lset_ok by exact Hr. cbn [bind].
      pose proof (upd_length r (nth r acc 0 + v * nth c d 0) acc Hr) as Lu.
      destruct (IH jv (firstn r acc ++ (nth r acc 0 + v * nth c d 0) :: skipn (S r) acc)) as (acc' & E & La & N).
      { lia. } { rewrite Lu. exact F. } { exact K'. }
      exists acc'. split; [exact E|]. split; [lia|]. intros k. rewrite N, upd_nth by exact Hr.
      rewrite (Nat.eqb_sym r k). destruct (Nat.eqb_spec k r) as [->|_]; cbn [andb]; unfold at_; ring.
    + destruct (IH jv acc) as (acc' & E & La & N); [lia|exact F|exact K'|].
      exists acc'. split; [exact E|]. split; [lia|]. intros k. rewrite N, andb_false_r. ring.
Qed.
Lemma active_x_ok : forall d i xl xu zL zU, length xl = length d -> length xu = length d ->
  length zL = length d -> length zU = length d ->
  exists ax, active_x i xl xu zL zU d = Ok ax /\
  forall k, In k ax -> (i <= k < i + length d)%nat /\ (0 < at_ zU (k - i) \/ 0 < at_ zL (k - i)).
Proof.
  induction d as [|di d IH]; intros i xl xu zL zU L1 L2 L3 L4; cbn [active_x].
  - exists []. split; [reflexivity|]. intros k [].
  - destruct xl as [|l xl], xu as [|u xu], zL as [|a zL], zU as [|b zU]; cbn in L1, L2, L3, L4; try discriminate.
    destruct (IH (S i) xl xu zL zU) as (ax & E & N); try lia. rewrite E. cbn [bind].
    assert (N' : forall k, In k ax -> (i <= k < i + length (di :: d))%nat /\ (0 < at_ (b :: zU) (k - i) \/ 0 < at_ (a :: zL) (k - i))).
    { intros k Hk. apply N in Hk as [H1 H2]. split; [cbn [length]; lia|].
      replace (k - i)%nat with (S (k - S i)) by lia. exact H2. }
    destruct (_ && _)%bool eqn:B; [|exists ax; split; [reflexivity|exact N']].
    exists (i :: ax). split; [reflexivity|]. intros k [<-|Hk]; [|apply N', Hk].
    split; [cbn [length]; lia|]. rewrite Nat.sub_diag. cbn [at_ nth]. unfold at_; cbn [nth].
    apply andb_true_iff in B as [_ B]. apply orb_true_iff in B as [B|B]; apply andb_true_iff in B as [B1 B2];
      apply Qltb_lt in B1; apply Qltb_lt in B2; unfold ztol in B2.
    + left. apply Qnot_le_lt. intros C.
      assert (b * di <= 0 * di) by (apply Qmult_le_compat_r; [exact C|lra]). lra.
    + right. apply Qnot_le_lt. intros C.
      assert (a * (- di) <= 0 * (- di)) by (apply Qmult_le_compat_r; [exact C|lra]). lra.
Qed.
Lemma active_g_ok : forall jd j gl gu lam, length gl = length jd -> length gu = length jd -> length lam = length jd ->
  exists ag, active_g j gl gu lam jd = Ok ag /\
  forall k, In k ag -> (j <= k < j + length jd)%nat /\ (1 # 10000) < Qabs (at_ lam (k - j)).
Proof.
  induction jd as [|v jd IH]; intros j gl gu lam L1 L2 L3; cbn [active_g].
  - exists []. split; [reflexivity|]. intros k [].
  - destruct gl as [|l gl], gu as [|u gu], lam as [|a lam]; cbn in L1, L2, L3; try discriminate.
    destruct (IH (S j) gl gu lam) as (ag & E & N); try lia. rewrite E. cbn [bind].
    assert (N' : forall k, In k ag -> (j <= k < j + length (v :: jd))%nat /\ (1 # 10000) < Qabs (at_ (a :: lam) (k - j))).
    { intros k Hk. apply N in Hk as [H1 H2]. split; [cbn [length]; lia|].
      replace (k - j)%nat with (S (k - S j)) by lia. exact H2. }
    destruct (_ && _)%bool eqn:B; [|exists ag; split; [reflexivity|exact N']].
    exists (j :: ag). split; [reflexivity|]. intros k [<-|Hk]; [|apply N', Hk].
    split; [cbn [length]; lia|]. rewrite Nat.sub_diag. unfold at_; cbn [nth].
    apply andb_true_iff in B as [B _]. apply andb_true_iff in B as [_ B]. apply Qltb_lt in B. exact B.
Qed.
Lemma eltb_apart l u : eltb l u = true <-> apart l u.
Proof. destruct l, u; cbn; try (split; [discriminate|contradiction]); try (split; auto; fail). apply Qltb_lt. Qed.
Lemma active_x_iff : forall d i xl xu zL zU ax, active_x i xl xu zL zU d = Ok ax ->
  forall k, In k ax <-> (i <= k < i + length d)%nat /\ apart (nth (k - i) xl MInf) (nth (k - i) xu PInf) /\
    (0 < at_ d (k - i) /\ (1 # 10000) < at_ zU (k - i) * at_ d (k - i) \/
     at_ d (k - i) < 0 /\ (1 # 10000) < - at_ zL (k - i) * at_ d (k - i)).
Proof.
  induction d as [|di d IH]; intros i xl xu zL zU ax E k; cbn [active_x] in E.
  - injection E as <-. cbn [length]. split; [intros []|]. intros [H _]. lia.
  - destruct xl as [|l xl], xu as [|u xu], zL as [|a zL], zU as [|b zU]; try discriminate.
    apply bind_ok in E as (r & E & E'). injection E' as <-. specialize (IH (S i) xl xu zL zU r E k).
    destruct (Nat.eq_dec k i) as [->|N].
    + rewrite Nat.sub_diag. unfold at_. cbn [nth length].
      assert (NI : ~ In i r) by (rewrite IH; lia).
      match goal with |- context [if ?B then _ else _] => assert (HB : B = true <-> apart l u /\
        (0 < di /\ (1 # 10000) < b * di \/ di < 0 /\ (1 # 10000) < - a * di)) end.
      { rewrite andb_true_iff, orb_true_iff, !andb_true_iff, !Qltb_lt, eltb_apart. reflexivity. }
      destruct (_ && _)%bool.
      * split; [intros _; split; [lia|apply HB; reflexivity]|intros _; left; reflexivity].
      * split; [intros H; contradiction|]. intros [_ H]. apply HB in H. discriminate.
    + assert (IE : In k (if (eltb l u && (Qltb 0 di && Qltb ztol (b * di) || Qltb di 0 && Qltb ztol (- a * di)))%bool then i :: r else r) <-> In k r).
      { destruct (_ && _)%bool; [|reflexivity]. split; [intros [C|H]; [congruence|exact H]|right; assumption]. }
      rewrite IE, IH. cbn [length]. split; intros [H1 H2]; (split; [lia|]).
      * replace (k - i)%nat with (S (k - S i)) by lia. exact H2.
      * replace (k - i)%nat with (S (k - S i)) in H2 by lia. exact H2.
Qed.
Lemma active_g_iff : forall jd j gl gu lam ag, active_g j gl gu lam jd = Ok ag ->
  forall k, In k ag <-> (j <= k < j + length jd)%nat /\ apart (nth (k - j) gl MInf) (nth (k - j) gu PInf) /\
    (1 # 10000) < Qabs (at_ lam (k - j)) /\ 0 < at_ lam (k - j) * at_ jd (k - j).
Proof.
  induction jd as [|v jd IH]; intros j gl gu lam ag E k; cbn [active_g] in E.
  - injection E as <-. cbn [length]. split; [intros []|]. intros [H _]. lia.
  - destruct gl as [|l gl], gu as [|u gu], lam as [|a lam]; try discriminate.
    apply bind_ok in E as (r & E & E'). injection E' as <-. specialize (IH (S j) gl gu lam r E k).
    destruct (Nat.eq_dec k j) as [->|N].
    + rewrite Nat.sub_diag. unfold at_. cbn [nth length].
      assert (NI : ~ In j r) by (rewrite IH; lia).
      match goal with |- context [if ?B then _ else _] => assert (HB : B = true <-> apart l u /\ (1 # 10000) < Qabs a /\ 0 < a * v) end.
      { rewrite !andb_true_iff, !Qltb_lt, eltb_apart. unfold ztol. tauto. }
      destruct (_ && _)%bool.
      * split; [intros _; split; [lia|apply HB; reflexivity]|intros _; left; reflexivity].
      * split; [intros H; contradiction|]. intros [_ H]. apply HB in H. discriminate.
    + assert (IE : In k (if (eltb l u && Qltb ztol (Qabs a) && Qltb 0 (a * v))%bool then j :: r else r) <-> In k r).
      { destruct (_ && _)%bool; [|reflexivity]. split; [intros [C|H]; [congruence|exact H]|right; assumption]. }
      rewrite IE, IH. cbn [length]. split; intros [H1 H2]; (split; [lia|]).
      * replace (k - j)%nat with (S (k - S j)) by lia. exact H2.
      * replace (k - j)%nat with (S (k - S j)) in H2 by lia. exact H2.
Qed.
Lemma count_pos G : (0 < count G)%nat <-> exists r, (r < length G)%nat /\ nth r G false = true.
Proof.
  induction G as [|b G IH]; cbn [count length].
  - split; [lia|]. intros (r & H & _). lia.
  - destruct b.
    + split; [intros _; exists 0%nat; split; [lia|reflexivity]|lia].
    + cbn [Nat.add]. rewrite IH. split.
      * intros (r & H & E). exists (S r). split; [lia|exact E].
      * intros ([|r] & H & E); [discriminate|]. exists r. split; [lia|exact E].
Qed.
Lemma idamax_spec l : forall b, (In (idamax b l) (b :: l)) /\ Qabs b <= Qabs (idamax b l) /\
  (forall v, In v l -> Qabs v <= Qabs (idamax b l)).
Proof.
  induction l as [|v l IH]; intros b; cbn [idamax].
  - split; [left; reflexivity|]. split; [apply Qle_refl|]. intros v [].
  - destruct (IH (if Qltb (Qabs b) (Qabs v) then v else b)) as (H1 & H2 & H3).
    destruct (Qltb (Qabs b) (Qabs v)) eqn:E.
    + apply Qltb_lt in E. split; [right; exact H1|]. split; [lra|].
      intros w [<-|Hw]; [exact H2|apply H3, Hw].
    + apply Qltb_ge in E. split; [destruct H1; [left|right; right]; assumption|]. split; [exact H2|].
      intros w [<-|Hw]; [lra|apply H3, Hw].
Qed.
Lemma quad_ok d : forall st hv acc, length hv = length st -> Forall (fun rc => fst rc < length d /\ snd rc < length d)%nat st ->
  exists q, quad st hv d acc = Ok q /\ q == acc +
  qsum (map (fun t : trip => if Nat.eqb (fst (fst t)) (snd (fst t)) then at_ d (fst (fst t)) * at_ d (fst (fst t)) * snd t
                      else 2 * at_ d (fst (fst t)) * at_ d (snd (fst t)) * snd t) (combine st hv)).
Proof.
  induction st as [|[r c] st IH]; intros hv acc L F; destruct hv as [|h hv]; cbn in L; try discriminate; cbn [quad combine map qsum].
  - exists acc. split; [reflexivity|]. ring.
  - pose proof (Forall_inv F) as [Hr Hc]. apply Forall_inv_tail in F. cbn [fst snd] in *.
    rewrite (rd_ok r d 0), (rd_ok c d 0) by assumption. cbn [bind].
    destruct (IH hv (acc + (if Nat.eqb r c then nth r d 0 * nth r d 0 * h else 2 * nth r d 0 * nth c d 0 * h))) as (q & E & Q); [lia|exact F|].
    exists q. split; [exact E|]. rewrite Q. unfold at_. destruct (Nat.eqb r c); ring.
Qed.

(** ** The estimator's state *)
Definition est_ok (P : nlp) (e : est) : Prop :=
  e_init e = true -> e_n e = p_n P /\ e_m e = p_m P /\ e_jst e = zero0 P /\ e_hst e = map (from0 P) (p_hst P).
Definition agree (a b : est) : Prop :=
  e_init a = e_init b /\ e_n a = e_n b /\ e_m a = e_m b /\ e_jst a = e_jst b /\ e_hst a = e_hst b /\ e_jv a = e_jv b /\ e_eq a = e_eq b.
Lemma agree_refl a : agree a a.
Proof. repeat split. Qed.
Lemma agree_trans a b c : agree a b -> agree b c -> agree a c.
Proof. unfold agree. intuition congruence. Qed.
Lemma agree_sym a b : agree a b -> agree b a.
Proof. unfold agree. intuition congruence. Qed.
Definition hess_of (P : nlp) (c : call) : list Q := p_hv P (k_x c) 1 (k_lam c).

Section Rest.
Variables (P : nlp) (ls : solver) (c : call) (e : est) (u : user) (sv : space * list Q) (FE GE : list bool).
Hypotheses (OK : nlp_ok P) (CO : call_ok P c) (SZ : sized ls).
Hypotheses (EI : e_init e = true) (EO : est_ok P e) (EJ : e_jv e = Some (p_jv P (k_x c))) (EE : e_eq e = Some sv).
Hypotheses (SV : is_sv (zero0 P) (p_jv P (k_x c)) FE GE sv)
  (IFE : is_free (p_n P) (k_xl c) (k_xu c) [] FE) (IGE : is_fix (p_m P) (k_gl c) (k_gu c) [] GE).
Hypothesis (HC : k_newx c = true \/ e_hv e = Some (hess_of P c)).
Let T := combine (zero0 P) (p_jv P (k_x c)).

Lemma jst_wf : Forall (fun rc => fst rc < p_m P /\ snd rc < p_n P)%nat (zero0 P).
Proof.
  unfold zero0. apply Forall_map. eapply Forall_impl; [|apply (ok_jst P OK)]. intros a H; cbn [from0 fst snd] in *. lia.
Qed.
Lemma jv_len : length (p_jv P (k_x c)) = length (zero0 P).
Proof. unfold zero0. rewrite map_length. apply (ok_jv P OK), (co_x P c CO). Qed.

(** The directions after each projection. *)
Definition good (d pd : list Q) (FX GX : list bool) : Prop :=
  length d = p_n P /\ length pd = p_n P /\
  (forall i, (i < p_n P)%nat -> nth i FX false = true -> nth i FE false = true) /\
  (forall r, (r < p_m P)%nat -> nth r GE false = true -> nth r GX false = true) /\
  length FX = p_n P /\ length GX = p_m P /\
  (forall i, (i < p_n P)%nat -> nth i FX false = false ->
     same_bound (nth i (k_xl c) MInf) (nth i (k_xu c) PInf) \/ 0 < at_ (k_zU c) i \/ 0 < at_ (k_zL c) i) /\
  (forall r, (r < p_m P)%nat -> nth r GX false = true ->
     same_bound (nth r (k_gl c) MInf) (nth r (k_gu c) PInf) \/ (1 # 10000) < Qabs (at_ (k_lam c) r)) /\
  (forall i, nth i FX false = false -> at_ pd i = 0) /\
  (forall i, (i < p_n P)%nat -> same_bound (nth i (k_xl c) MInf) (nth i (k_xu c) PInf) -> nth i FX false = false) /\
  (forall r, (r < p_m P)%nat -> same_bound (nth r (k_gl c) MInf) (nth r (k_gu c) PInf) -> nth r GX false = true) /\
  ((exists sv1, sv1 = sv /\ SolveSystem ls (k_d c) sv1 = Ok (Some d) /\ (0 < count GE)%nat) \/ (count GE = 0%nat /\ d = k_d c)) /\
  (exists sv2, is_sv (zero0 P) (p_jv P (k_x c)) FX GX sv2 /\ SolveSystem ls d sv2 = Ok (Some pd)) /\
  (forall i, (i < p_n P)%nat -> (nth i FX false = false <-> held_var P c d i)) /\
  (forall r, (r < p_m P)%nat -> (nth r GX false = true <-> held_row P c d r)).
(** The sanity check. *)
Definition accepted (pd : list Q) (GX : list bool) : Prop :=
  exists r0, (r0 < p_m P)%nat /\
  let res := fun r => if nth r GX false then mul_row T pd r else 0 in
  (forall r, (r < p_m P)%nat -> Qabs (res r) <= Qabs (res r0)) /\ res r0 <= 1 # 1000000.

Lemma is_sv_ng : s_ng (fst sv) = count GE.
Proof. destruct SV as (_ & _ & _ & H & _). exact H. Qed.

Lemma curv_active_ok d : length d = p_n P ->
  exists e' sv' FX GX, curv_active c d (s_ng (fst sv)) e = Ok (e', sv') /\ agree e e' /\ e_hv e' = e_hv e /\
    is_sv (zero0 P) (p_jv P (k_x c)) FX GX sv' /\ length FX = p_n P /\ length GX = p_m P /\
    (forall i, (i < p_n P)%nat -> nth i FX false = true -> nth i FE false = true) /\
    (forall r, (r < p_m P)%nat -> nth r GE false = true -> nth r GX false = true) /\
    (forall i, (i < p_n P)%nat -> nth i FX false = false ->
       same_bound (nth i (k_xl c) MInf) (nth i (k_xu c) PInf) \/ 0 < at_ (k_zU c) i \/ 0 < at_ (k_zL c) i) /\
    (forall r, (r < p_m P)%nat -> nth r GX false = true ->
       same_bound (nth r (k_gl c) MInf) (nth r (k_gu c) PInf) \/ (1 # 10000) < Qabs (at_ (k_lam c) r)) /\
    (forall i, (i < p_n P)%nat -> same_bound (nth i (k_xl c) MInf) (nth i (k_xu c) PInf) -> nth i FX false = false) /\
    (forall r, (r < p_m P)%nat -> same_bound (nth r (k_gl c) MInf) (nth r (k_gu c) PInf) -> nth r GX false = true) /\
    (forall i, (i < p_n P)%nat -> (nth i FX false = false <-> held_var P c d i)) /\
    (forall r, (r < p_m P)%nat -> (nth r GX false = true <-> held_row P c d r)).
Proof.
  intros Ld. destruct (EO EI) as (En & Em & Ejs & Ehs).
  pose proof jst_wf as JW. pose proof jv_len as JL.
  destruct CO as [Cx Cxl Cxu Cgl Cgu CzL CzU Clam Cd].
  unfold curv_active.
  assert (AX : exists ax, (if Nat.ltb 0 (s_ng (fst sv)) then active_x 0 (k_xl c) (k_xu c) (k_zL c) (k_zU c) d else Ok []) = Ok ax /\
            forall k, In k ax -> (k < p_n P)%nat /\ (0 < at_ (k_zU c) k \/ 0 < at_ (k_zL c) k)).
  { destruct (Nat.ltb 0 _).
    - destruct (active_x_ok d 0 (k_xl c) (k_xu c) (k_zL c) (k_zU c)) as (ax & E & N); try lia.
      exists ax. split; [exact E|]. intros k Hk. apply N in Hk as [H1 H2]. rewrite Nat.sub_0_r in H2. split; [lia|exact H2].
    - exists []. split; [reflexivity|]. intros k []. }
  destruct AX as (ax & Eax & Nax). rewrite Eax. cbn [bind]. rewrite EJ.
  destruct (jprod_ok (fun _ _ => Ok true) (fun _ => true) d (e_jst e) (p_jv P (k_x c)) (repeat 0 (e_m e))) as (jd & Ejd & Ljd & Njd).
  { rewrite Ejs. exact JL. } { rewrite repeat_length, Em, Ejs, Ld. exact JW. } { reflexivity. }
  rewrite Ejd. cbn [bind]. rewrite repeat_length, Em in Ljd.
  destruct (active_g_ok jd 0 (k_gl c) (k_gu c) (k_lam c)) as (ag & Eag & Nag); try lia.
  rewrite Eag. cbn [bind].
  destruct (structure_ok e (k_xl c) (k_xu c) (k_gl c) (k_gu c) ax ag) as (s & FX & GX & Es & [LF IF] & [LG IG] & Hs); try lia.
  { apply Forall_forall. intros k Hk. apply Nax in Hk. lia. }
  { apply Forall_forall. intros k Hk. apply Nag in Hk. lia. }
  { rewrite En, Em, Ejs. exact JW. }
  rewrite En in LF, IF. rewrite Em in LG, IG.
  rewrite Es. cbn [bind].
  destruct (values_ok e (p_jv P (k_x c)) FX GX s EJ) as (v & Ev & Sv).
  { rewrite Ejs. exact JL. } { rewrite Ejs, LF, LG. exact JW. } { exact Hs. }
  rewrite Ev. cbn [bind]. rewrite Ejs in Sv.
  eexists _, (s, v), FX, GX. split; [reflexivity|].
  split; [unfold agree; cbn; repeat split; congruence|]. split; [reflexivity|]. split; [exact Sv|].
  split; [exact LF|]. split; [exact LG|].
  destruct IFE as [_ IFE']. destruct IGE as [LGE0 IGE'].
  split; [|split; [|split; [|split; [|split; [|split; [|split]]]]]].
  - intros i Hi H. rewrite IF in H by exact Hi. rewrite IFE' by exact Hi. cbn [existsb]. rewrite andb_true_r.
    apply andb_true_iff in H. tauto.
  - intros r Hr H. rewrite IGE' in H by exact Hr. cbn [existsb] in H. rewrite orb_false_r in H. rewrite IG by exact Hr. rewrite H. reflexivity.
  - intros i Hi H. rewrite IF in H by exact Hi. apply andb_false_iff in H as [H|H]; apply negb_false_iff in H.
    + left. apply eeqb_same, H.
    + right. apply existsb_exists in H as (k & Hk & Hik). apply Nat.eqb_eq in Hik. subst k. apply Nax in Hk. tauto.
  - intros r Hr H. rewrite IG in H by exact Hr. apply orb_true_iff in H as [H|H].
    + left. apply eeqb_same, H.
    + right. apply existsb_exists in H as (k & Hk & Hik). apply Nat.eqb_eq in Hik. subst k. apply Nag in Hk as [_ Hk].
      rewrite Nat.sub_0_r in Hk. exact Hk.
  - intros i Hi H. rewrite IF by exact Hi. apply eeqb_same in H. rewrite H. reflexivity.
  - intros r Hr H. rewrite IG by exact Hr. apply eeqb_same in H. rewrite H. reflexivity.
  - intros i Hi. rewrite IF by exact Hi. rewrite andb_false_iff, !negb_false_iff. unfold held_var.
    assert (HE : existsb (Nat.eqb i) ax = true <-> In i ax).
    { rewrite existsb_exists. split; [intros (k & Hk & E); apply Nat.eqb_eq in E; subst; exact Hk|].
      intros H. exists i. split; [exact H|apply Nat.eqb_refl]. }
    rewrite HE. unfold var_fixed. rewrite eeqb_same. apply or_iff_compat_l.
    assert (CG : (0 < count GE)%nat <-> exists r, (r < p_m P)%nat /\ same_bound (nth r (k_gl c) MInf) (nth r (k_gu c) PInf)).
    { rewrite count_pos, LGE0. split; intros (r & Hr & H); exists r; (split; [exact Hr|]).
      - rewrite IGE' in H by exact Hr. cbn [existsb] in H. rewrite orb_false_r in H. apply eeqb_same, H.
      - rewrite IGE' by exact Hr. apply eeqb_same in H. rewrite H. reflexivity. }
    rewrite is_sv_ng in Eax. destruct (Nat.ltb_spec 0 (count GE)) as [C|C].
    + rewrite (active_x_iff _ _ _ _ _ _ _ Eax i), Nat.sub_0_r. split.
      * intros [_ H]. split; [apply CG, C|exact H].
      * intros [_ H]. split; [lia|exact H].
    + injection Eax as <-. split; [intros []|]. intros [H _]. apply CG in H. lia.
  - intros r Hr. rewrite IG by exact Hr. rewrite orb_true_iff. unfold held_row.
    assert (HE : existsb (Nat.eqb r) ag = true <-> In r ag).
    { rewrite existsb_exists. split; [intros (k & Hk & E); apply Nat.eqb_eq in E; subst; exact Hk|].
      intros H. exists r. split; [exact H|apply Nat.eqb_refl]. }
    rewrite HE. unfold var_fixed. rewrite eeqb_same. apply or_iff_compat_l.
    rewrite (active_g_iff _ _ _ _ _ _ Eag r), Nat.sub_0_r.
    assert (RC : at_ jd r == row_change P (k_x c) d r).
    { unfold at_. rewrite Njd, nth_repeat, Qplus_0_l. rewrite row_change_trip by assumption. unfold mul_row. rewrite Ejs.
      apply qsum_ext. intros t _. rewrite andb_true_r. reflexivity. }
    rewrite RC. split; [intros [_ H]; exact H|]. intros H. split; [lia|exact H].
Qed.

Lemma rest_ok : (0 < p_m P)%nat ->
  exists o e' u', curv_rest P false ls c e u = Ok (o, e', u') /\ agree e e' /\
  forall pd g q, o = Some (pd, g, q) ->
    g = 0 /\ e_hv e' = Some (hess_of P c) /\ q == form P (k_x c) (k_lam c) pd /\
    exists d FX GX, good d pd FX GX /\ accepted pd GX.
Proof.
  intros MP. destruct (EO EI) as (En & Em & Ejs & Ehs).
  pose proof jst_wf as JW. pose proof jv_len as JL.
  destruct IFE as [LFE IFE']. destruct IGE as [LGE IGE'].
  unfold curv_rest. rewrite EE.
  assert (D : exists o, (if Nat.ltb 0 (s_ng (fst sv)) then SolveSystem ls (k_d c) sv else Ok (Some (k_d c))) = Ok o /\
     forall d, o = Some d -> length d = p_n P /\
       ((exists sv1, sv1 = sv /\ SolveSystem ls (k_d c) sv1 = Ok (Some d) /\ (0 < count GE)%nat) \/ (count GE = 0%nat /\ d = k_d c))).
  { rewrite is_sv_ng. destruct (Nat.ltb_spec 0 (count GE)).
    - destruct (SolveSystem_sized ls (k_d c) _ _ FE GE sv SZ SV) as (o & E & N).
      { rewrite LFE. apply (co_d P c CO). }
      exists o. split; [exact E|]. intros d ->. destruct (N d eq_refl) as [L _]. split; [lia|]. left. exists sv. split; [reflexivity|].
      split; assumption.
    - exists (Some (k_d c)). split; [reflexivity|]. intros d Hd. injection Hd as <-. split; [apply (co_d P c CO)|]. right.
      split; [lia|reflexivity]. }
  destruct D as (o & ED & ND). rewrite ED. cbn [bind].
  destruct o as [d|]; [|exists None, e, u; split; [reflexivity|]; split; [apply agree_refl|discriminate]].
  destruct (ND d eq_refl) as [Ld HD]. clear ND ED.
  destruct (curv_active_ok d Ld) as (e1 & sv' & FX & GX & EA & AG & HV & Sv & LFX & LGX & I1 & I2 & I3 & I4 & I5 & I6 & I7 & I8).
  rewrite EA. cbn [bind].
  destruct (SolveSystem_sized ls d _ _ FX GX sv' SZ Sv) as (o & E2 & N2); [lia|]. rewrite E2. cbn [bind].
  destruct o as [pd|]; [|exists None, e1, u; split; [reflexivity|]; split; [exact AG|discriminate]].
  destruct (N2 pd eq_refl) as [Lpd Zpd].
  destruct AG as (A0 & A1 & A2 & A3 & A4 & A5 & A6).
  rewrite <- A5, EJ.
  destruct (jprod_ok (kept (fst sv')) (keepb FX GX) pd (e_jst e1) (p_jv P (k_x c)) (repeat 0 (e_m e1))) as (t & Et & Lt & Nt).
  { rewrite <- A3, Ejs. exact JL. }
  { rewrite repeat_length, <- A2, Em, <- A3, Ejs, Lpd, LFX. exact JW. }
  { intros r k Hin. rewrite <- A3, Ejs in Hin. rewrite Forall_forall in JW. apply JW in Hin as [Hr Hk]. cbn [fst snd] in *.
    destruct Sv as (S1 & _ & S3 & _). unfold kept. rewrite S1, S3. unfold rd.
    rewrite !number_nth by lia. cbn [bind]. unfold keepb. cbn [fst snd].
    destruct (nth k FX false), (nth r GX false); reflexivity. }
  rewrite Et. cbn [bind]. rewrite repeat_length, <- A2, Em in Lt.
  destruct t as [|t0 t]; [cbn in Lt; lia|]. cbn [max_trash bind].
  destruct (idamax_spec t t0) as (M1 & M2 & M3).
  set (w := idamax t0 t) in *. clearbody w.
  assert (RES : forall r, nth r (t0 :: t) 0 == if nth r GX false then mul_row T pd r else 0).
  { intros r. rewrite Nt. rewrite nth_repeat, Qplus_0_l. rewrite <- A3, Ejs. fold T.
    destruct (nth r GX false) eqn:Er.
    - unfold mul_row. apply qsum_ext. intros [[a k] v] Hin. cbn [fst snd].
      destruct (Nat.eqb_spec a r) as [->|_]; [|reflexivity]. cbn [andb]. unfold keepb. cbn [fst snd]. rewrite Er, andb_true_r.
      destruct (nth k FX false) eqn:Ek; [reflexivity|]. rewrite (Zpd k Ek). ring.
    - apply qsum_all0. intros [[a k] v] Hin. cbn [fst snd]. destruct (Nat.eqb_spec a r) as [->|_]; [|reflexivity].
      unfold keepb. cbn [fst snd]. rewrite Er, andb_false_r. reflexivity. }
  destruct (Qltb trash_tol w) eqn:Ew.
  { exists None, e1, u. split; [reflexivity|]. split; [repeat split; congruence|discriminate]. }
  apply Qltb_ge in Ew. unfold trash_tol in Ew.
  assert (HV' : exists u', (if (k_newx c || match e_hv e1 with None => true | _ => false end)%bool
             then call_h P false (k_x c) (k_newx c) (k_lam c) false u
             else match e_hv e1 with Some hv => Ok (hv, u) | None => NullDeref end) = Ok (hess_of P c, u')).
  { destruct HC as [N|H].
    - rewrite N. cbn [orb]. unfold call_h, told. cbn [negb orb bind]. eexists. reflexivity.
    - rewrite HV, H. destruct (k_newx c).
      + cbn [orb]. unfold call_h, told. cbn [negb orb bind]. eexists. reflexivity.
      + cbn [orb]. eexists. reflexivity. }
  destruct HV' as (u' & EH). rewrite EH. cbn [bind e_hst].
  destruct (quad_ok pd (e_hst e1) (hess_of P c) 0) as (q & Eq & Nq).
  { rewrite <- A4, Ehs, map_length. apply (ok_hv P OK); [apply (co_x P c CO)|apply (co_lam P c CO)]. }
  { rewrite <- A4, Ehs, Lpd, LFX. apply Forall_map. eapply Forall_impl; [|apply (ok_hst P OK)].
    intros a H; cbn [from0 fst snd] in *. lia. }
  rewrite Eq. cbn [bind].
  eexists _, _, u'. split; [reflexivity|]. split; [repeat split; cbn; congruence|].
  intros pd' g q' H. injection H as <- <- <-. split; [reflexivity|]. split; [reflexivity|]. split.
  { rewrite Nq, Qplus_0_l. rewrite (form_trip P (k_x c) (k_lam c) pd OK). rewrite <- A4, Ehs. reflexivity. }
  exists d, FX, GX. split.
  { unfold good. rewrite Lpd, LFX. repeat (split; [first [assumption | exact eq_refl]|]). split; [exists sv'; split; assumption|]. split; assumption. }
  assert (HM : exists r0, (r0 < p_m P)%nat /\ nth r0 (t0 :: t) 0 = w).
  { destruct (In_nth (t0 :: t) w 0 M1) as (r0 & Hr & E). exists r0. split; [lia|exact E]. }
  destruct HM as (r0 & Hr0 & Er0). exists r0. split; [exact Hr0|]. cbv zeta. split.
  - intros r Hr. rewrite <- !RES, Er0.
    destruct r as [|r]; [exact M2|]. apply M3. cbn [nth]. apply nth_In. cbn in Lt. lia.
  - rewrite <- RES, Er0. exact Ew.
Qed.
End Rest.
