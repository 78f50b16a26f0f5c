(** Proofs about coefficient removal and the Benders cut. *)
From Verif Require Import Base Arr Nlp OA_Model OA_Spec OA_Proofs OA_Proofs2.
#[local] Open Scope Q_scope.

(** ** Removal of one coefficient *)
Theorem clean_safe v cl cu rl ru x lb ub tiny vtiny lb' ub' :
  vtiny <= Qabs v -> sides_match rl ru lb ub ->
  clean_nnz v cl cu rl ru x lb ub tiny vtiny = (false, lb', ub') -> removal_safe v cl cu x lb ub lb' ub'.
Proof.
  intros VT [S1 S2] H rest y LO UP RL RU. unfold clean_nnz in H.
  destruct (Qle_bool tiny (Qabs v)); [discriminate|].
  assert (X : Qltb (Qabs v) vtiny = false) by (apply Qltb_ge; exact VT). rewrite X in H. clear X.
  destruct (Qltb 0 v) eqn:V; [apply Qltb_lt in V|apply Qltb_ge in V];
  destruct rl as [|rl|]; destruct ru as [|ru|]; cbn [gtm ltp negb andb] in H; cbv iota in H;
  try (rewrite (S1 eq_refl) in *); try (rewrite (S2 eq_refl) in *);
  destruct cu as [|u|]; try (now destruct UP); destruct cl as [|l|]; try (now destruct LO); cbn in LO, UP;
  try discriminate H; injection H as <- <-;
  (split; [try exact RL; try exact Logic.I; destruct lb as [|a|]; cbn in *; try tauto; try lra; nra
          |try exact RU; try exact Logic.I; destruct ub as [|a|]; cbn in *; try tauto; try lra; nra]).
Qed.
(** The quadratic version: the coefficient stays in the row, so the shift is
    harmless when the column has a nonnegative lower bound and no upper bound. *)
Theorem q_clean_shift v l rl ru x lb ub tiny vtiny v' lb' ub' :
  0 <= l -> vtiny <= Qabs v -> sides_match rl ru lb ub ->
  q_clean v (Fin l) PInf rl ru x lb ub tiny vtiny = (false, v', lb', ub') -> v' = v /\ shift_safe v (Fin l) PInf x lb ub lb' ub'.
Proof.
  intros L0 VT [S1 S2] H. unfold q_clean in H.
  destruct (Qle_bool tiny (Qabs v)); [discriminate|].
  assert (X : Qltb (Qabs v) vtiny = false) by (apply Qltb_ge; exact VT). rewrite X in H. clear X.
  assert (X : Qltb (- q_big) l = true) by (apply Qltb_lt; assert (0 < q_big) by reflexivity; lra). rewrite X in H. clear X.
  destruct (Qltb 0 v) eqn:V; [apply Qltb_lt in V|apply Qltb_ge in V];
  destruct rl as [|rl|]; destruct ru as [|ru|]; cbn [gtm ltp negb andb] in H; cbv iota in H;
  try (rewrite (S1 eq_refl) in *); try (rewrite (S2 eq_refl) in *);
  try discriminate H; injection H as <- <- <-;
  (split; [reflexivity|]); intros rest y LO UP RL RU; cbn in LO, UP;
  (split; [destruct lb as [|a|]; cbn in *; try tauto; try lra; nra
          |destruct ub as [|a|]; cbn in *; try tauto; try lra; nra]).
Qed.
Lemma q_clean_large v cl cu rl ru x lb ub tiny vtiny : tiny <= Qabs v ->
  q_clean v cl cu rl ru x lb ub tiny vtiny = (true, v, lb, ub).
Proof. intros H. unfold q_clean. apply Qleb_le in H. rewrite H. reflexivity. Qed.

(** ** Dense rows *)
Definition drow (i : nat) (cut : list Q) (y : list Q) : Q :=
  qsum (map (fun p => snd p * nth (fst p) y 0) (combine (seq i (length cut)) cut)).
Lemma drow_upd c a v cut y : forall i, (c < length cut)%nat -> a = nth c cut 0 ->
  drow i (firstn c cut ++ (a + v) :: skipn (S c) cut) y == drow i cut y + v * nth (i + c) y 0.
Proof.
  revert c. induction cut as [|b cut IH]; intros c i H A; [cbn in H; lia|].
  destruct c as [|c].
  - cbn in A. subst a. unfold drow. cbn [firstn skipn app length seq combine map qsum fst snd]. rewrite Nat.add_0_r. ring.
  - cbn [nth] in A. cbn [firstn skipn app]. unfold drow. cbn [length seq combine map qsum fst snd].
    assert (IH' := IH c (S i) ltac:(cbn in H; lia) A). unfold drow in IH'. rewrite IH'.
    replace (i + S c)%nat with (S i + c)%nat by lia. ring.
Qed.
Lemma drow_zero n i y : drow i (repeat 0 n) y == 0.
Proof.
  unfold drow. apply qsum_all0. intros [c v] I. apply in_combine_r in I. apply repeat_spec in I. subst v. cbn. ring.
Qed.
Lemma drow_app a b i y : drow i (a ++ b) y == drow i a y + drow (i + length a) b y.
Proof.
  revert i; induction a as [|v a IH]; intros i.
  - unfold drow at 2. cbn [app length seq combine map qsum]. rewrite Nat.add_0_r. ring.
  - cbn [app]. unfold drow. cbn [length seq combine map qsum fst snd].
    assert (IH' := IH (S i)). unfold drow in IH'. rewrite IH'.
    replace (S i + length a)%nat with (i + S (length a))%nat by lia. ring.
Qed.
Lemma pack_bound cut y : forall i,
  lhs (bd_pack i cut) y - bd_zero * qsum (map (fun j => Qabs (nth j y 0)) (seq i (length cut))) <= drow i cut y.
Proof.
  induction cut as [|v cut IH]; intros i; [cbn; unfold drow; cbn; lra|].
  cbn [bd_pack length seq map qsum]. unfold drow. cbn [length seq combine map qsum fst snd].
  specialize (IH (S i)). unfold drow in IH.
  assert (Z : 0 <= bd_zero) by discriminate.
  pose proof (Qabs_nonneg (nth i y 0)) as AN.
  destruct (Qltb bd_zero (Qabs v)) eqn:V.
  - unfold lhs in *. cbn [map qsum fst snd] in *.
    assert (0 <= bd_zero * Qabs (nth i y 0)) by (apply Qmult_le_0_compat; assumption). lra.
  - apply Qltb_ge in V. pose proof (abs_mul v (nth i y 0)) as [_ A].
    assert (Qabs v * Qabs (nth i y 0) <= bd_zero * Qabs (nth i y 0)) by (apply Qmult_le_compat_r; assumption). lra.
Qed.
Lemma pack_cols cut : forall i en, In en (bd_pack i cut) -> (i <= fst en < i + length cut)%nat.
Proof.
  induction cut as [|v cut IH]; intros i en I; [destruct I|]. cbn [bd_pack] in I. cbn [length].
  destruct (Qltb bd_zero (Qabs v)); [destruct I as [<-|I]; [cbn; lia|]|]; apply IH in I; lia.
Qed.

(** ** One aggregated coefficient *)
Lemma bd_step tiny vt v c cl cu rl ru x y s :
  (c < length (d_cut s))%nat -> (ltp ru = true \/ tiny <= Qabs v) ->
  exists s', bd_coef tiny vt v c (nth c cl MInf) (nth c cu PInf) rl ru (nth c x 0) s = Ok s' /\
    length (d_cut s') = length (d_cut s) /\
    shifted (d_ub s) (d_ub s') (drow 0 (d_cut s') y - drow 0 (d_cut s) y
                                - v * (corner tiny vt rl ru cl cu x y (c, v) - nth c x 0)).
Proof.
  intros HC HU. unfold bd_coef, clean_nnz, corner.
  set (xc := nth c x 0). set (yc := nth c y 0).
  assert (K : exists s', (do a <- rd c (d_cut s); do cut <- lset c (a + v) (d_cut s); Ok (mkBd cut (d_lb s) (eadd (d_ub s) (v * xc)))) = Ok s' /\
      length (d_cut s') = length (d_cut s) /\ shifted (d_ub s) (d_ub s') (drow 0 (d_cut s') y - drow 0 (d_cut s) y - v * (yc - xc))).
  { rewrite (rd_nth c (d_cut s) 0 HC). cbn [bind]. rewrite (lset_ok _ _ _ HC). cbn [bind].
    eexists. split; [reflexivity|]. cbn [d_cut d_ub]. split; [apply upd_length; exact HC|].
    apply shifted_eadd. rewrite (drow_upd c (nth c (d_cut s) 0) v _ y 0 HC eq_refl). cbn [Nat.add]. fold yc. ring. }
  destruct (Qle_bool tiny (Qabs v)) eqn:T; [exact K|].
  destruct HU as [HU|HU]; [|apply Qleb_le in HU; congruence].
  destruct (Qltb (Qabs v) vt).
  { eexists. split; [reflexivity|]. cbn [d_cut d_ub]. split; [reflexivity|]. apply shifted_refl. ring. }
  rewrite HU. rewrite ?andb_false_r. cbn [negb andb orb]. rewrite ?andb_false_r. cbn [orb]. cbv iota.
  destruct (Qltb 0 v); destruct (gtm rl); cbn [negb andb orb]; cbv iota;
    destruct (nth c cu PInf) as [|u|]; destruct (nth c cl MInf) as [|l|]; try exact K;
    (eexists; split; [reflexivity|]; cbn [d_cut d_ub]; split; [reflexivity|]; apply shifted_eadd; ring).
Qed.

(** ** The whole aggregation *)
Definition kept_row (P : nlp) (e : oaenv) (i : nat) : bool := bd_keep (nth i (p_lin P) true) (nth i (e_duals e) 0).
Definition bd_side (P : nlp) (e : oaenv) (i : nat) : Q :=
  match (if Qltb (nth i (e_duals e) 0) 0 then glow P i else gup P i) with Fin q => q | _ => 0 end.
Definition bd_term (P : nlp) (e : oaenv) (x : list Q) (i : nat) : Q :=
  nth i (e_duals e) 0 * (bd_side P e i - gi P i x).
Lemma bd_rows_spec lin : forall gl gu g du ub, length gl = length lin -> length gu = length lin ->
  length g = length lin -> length du = length lin ->
  (forall i, (i < length lin)%nat -> bd_keep (nth i lin true) (nth i du 0) = true ->
     exists v, bd_rhs (nth i gl MInf) (nth i gu PInf) (nth i g 0) (nth i du 0) = Ok v) ->
  exists ub', bd_rows lin gl gu g du ub = Ok (map (fun i => bd_keep (nth i lin true) (nth i du 0)) (seq 0 (length lin)), ub') /\
    ub' == ub + qsum (map (fun i => if bd_keep (nth i lin true) (nth i du 0) then
              match bd_rhs (nth i gl MInf) (nth i gu PInf) (nth i g 0) (nth i du 0) with Ok v => v | _ => 0 end
              else 0) (seq 0 (length lin))).
Proof.
  induction lin as [|b lin IH]; intros gl gu g du ub L1 L2 L3 L4 RH.
  - exists ub. split; [reflexivity|]. cbn. ring.
  - destruct gl as [|rl gl]; [discriminate|]. destruct gu as [|ru gu]; [discriminate|].
    destruct g as [|gi g]; [discriminate|]. destruct du as [|d du]; [discriminate|].
    cbn [length] in *. cbn [bd_rows seq map qsum]. rewrite <- !seq_shift, !map_map. cbn [nth].
    assert (RH' : forall i, (i < length lin)%nat -> bd_keep (nth i lin true) (nth i du 0) = true ->
       exists v, bd_rhs (nth i gl MInf) (nth i gu PInf) (nth i g 0) (nth i du 0) = Ok v).
    { intros i Hi. apply (RH (S i)). lia. }
    destruct (bd_keep b d) eqn:K.
    + destruct (RH 0%nat) as (v & EV); [lia|exact K|]. cbn [nth] in EV. rewrite EV. cbn [bind].
      destruct (IH gl gu g du (ub + v)) as (u' & E & U); try lia; [exact RH'|]. rewrite E. cbn [bind fst snd].
      exists u'. split; [reflexivity|]. rewrite U. ring.
    + destruct (IH gl gu g du ub) as (u' & E & U); try lia; [exact RH'|]. rewrite E. cbn [bind fst snd].
      exists u'. split; [reflexivity|]. rewrite U. ring.
Qed.
Lemma nl_rows_in P i : nlp_ok P -> (i < p_m P)%nat -> nth i (p_lin P) true = false -> In i (nonlinear_rows P).
Proof. intros OK H N. apply filter_In. split; [apply in_seq; lia|]. rewrite N. reflexivity. Qed.
Lemma kept_cases P e i : nlp_ok P -> duals_sane P e -> (i < p_m P)%nat -> kept_row P e i = true ->
  nth i (p_lin P) true = false /\ bd_tol < Qabs (nth i (e_duals e) 0) /\
  ((0 < nth i (e_duals e) 0 /\ exists u, gup P i = Fin u /\ u < bd_big) \/
   (nth i (e_duals e) 0 < 0 /\ exists l, glow P i = Fin l /\ - bd_big < l)).
Proof.
  intros OK DS H K. unfold kept_row, bd_keep in K. apply andb_true_iff in K. destruct K as [K1 K2].
  apply negb_true_iff in K1. apply Qltb_lt in K2.
  destruct (DS i (nl_rows_in P i OK H K1) K2) as [A B]. split; [exact K1|]. split; [exact K2|].
  destruct (Q_dec (nth i (e_duals e) 0) 0) as [[D|D]|D].
  - right. auto.
  - left. auto.
  - exfalso. rewrite D in K2. cbn in K2. unfold bd_tol in K2. unfold Qlt in K2. cbn in K2. lia.
Qed.
Lemma bd_rhs_sane P e x i : nlp_ok P -> duals_sane P e -> (i < p_m P)%nat -> kept_row P e i = true ->
  bd_rhs (glow P i) (gup P i) (gi P i x) (nth i (e_duals e) 0) = Ok (bd_term P e x i).
Proof.
  intros OK DS H K. destruct (kept_cases P e i OK DS H K) as (_ & _ & [[D (u & U & B)]|[D (l & L & B)]]);
    unfold bd_rhs, bd_term, bd_side.
  - assert (X : Qltb (nth i (e_duals e) 0) 0 = false) by (apply Qltb_ge; lra). rewrite X, U.
    apply Qltb_lt in B. rewrite B. reflexivity.
  - assert (X : Qltb (nth i (e_duals e) 0) 0 = true) by (apply Qltb_lt; exact D). rewrite X, L.
    apply Qltb_lt in B. rewrite B. reflexivity.
Qed.

(** What a triplet removes from the slack. *)
Definition bd_take (P : nlp) (e : oaenv) (x y : list Q) (t : nat * nat * Q) : Q :=
  let i := fst (fst t) in
  if kept_row P e i then
    let p := (snd (fst t), nth i (e_duals e) 0 * snd t) in
    snd p * (corner (e_tiny e) (e_vtiny e) (glow P i) (gup P i) (e_cl e) (e_cu e) x y p - nth (fst p) x 0)
  else 0.
Lemma bd_loop_spec P e x y keep ts : nlp_ok P -> env_ok P e -> length x = p_n P ->
  keep = map (kept_row P e) (seq 0 (p_m P)) ->
  (forall t, In t ts -> (fst (fst t) < p_m P /\ snd (fst t) < p_n P)%nat) ->
  (forall t, In t ts -> kept_row P e (fst (fst t)) = true ->
     ltp (gup P (fst (fst t))) = true \/ e_tiny e <= Qabs (nth (fst (fst t)) (e_duals e) 0 * snd t)) ->
  forall s, length (d_cut s) = S (p_n P) ->
  exists s', bd_loop P e x keep ts s = Ok s' /\ length (d_cut s') = S (p_n P) /\
    shifted (d_ub s) (d_ub s') (drow 0 (d_cut s') y - drow 0 (d_cut s) y - qsum (map (bd_take P e x y) ts)).
Proof.
  intros OK EN LX KE. induction ts as [|[[r c] v] ts IH]; intros RG HU s LS.
  - exists s. split; [reflexivity|]. split; [exact LS|]. apply shifted_refl. cbn. ring.
  - cbn [bd_loop]. destruct (RG _ (or_introl eq_refl)) as [R1 R2]. cbn [fst snd] in R1, R2.
    assert (KR : rd r keep = Ok (kept_row P e r)).
    { rewrite (rd_nth r keep false) by (rewrite KE, map_length, seq_length; exact R1). f_equal.
      rewrite KE. rewrite (nth_indep _ false (kept_row P e 0)) by (rewrite map_length, seq_length; exact R1).
      rewrite map_nth. rewrite seq_nth by exact R1. reflexivity. }
    rewrite KR. cbn [bind]. cbn [map qsum].
    assert (RG' : forall t, In t ts -> (fst (fst t) < p_m P /\ snd (fst t) < p_n P)%nat) by (intros t It; apply RG; right; exact It).
    assert (HU' : forall t, In t ts -> kept_row P e (fst (fst t)) = true ->
       ltp (gup P (fst (fst t))) = true \/ e_tiny e <= Qabs (nth (fst (fst t)) (e_duals e) 0 * snd t))
      by (intros t It; apply HU; right; exact It).
    unfold bd_take at 1. cbn [fst snd]. destruct (kept_row P e r) eqn:K.
    + rewrite (rd_nth r (e_duals e) 0) by (rewrite (en_du _ _ EN); exact R1). cbn [bind].
      rewrite (rd_nth c (e_cl e) MInf) by (rewrite (en_cl _ _ EN); exact R2). cbn [bind].
      rewrite (rd_nth c (e_cu e) PInf) by (rewrite (en_cu _ _ EN); exact R2). cbn [bind].
      rewrite (rd_nth r (p_gl P) MInf) by (rewrite (ok_gl _ OK); exact R1). cbn [bind].
      rewrite (rd_nth r (p_gu P) PInf) by (rewrite (ok_gu _ OK); exact R1). cbn [bind].
      rewrite (rd_nth c x 0) by (rewrite LX; exact R2). cbn [bind].
      pose proof (HU _ (or_introl eq_refl) K) as HU0. cbn [fst snd] in HU0.
      destruct (bd_step (e_tiny e) (e_vtiny e) (nth r (e_duals e) 0 * v) c (e_cl e) (e_cu e) (glow P r) (gup P r) x y s)
        as (s1 & E1 & L1 & S1); [lia|exact HU0|].
      unfold glow, gup in E1. rewrite E1. cbn [bind].
      destruct (IH RG' HU' s1) as (s2 & E2 & L2 & S2); [lia|]. exists s2. split; [exact E2|]. split; [exact L2|].
      eapply shifted_trans; [exact S1|exact S2|]. ring.
    + destruct (IH RG' HU' s LS) as (s2 & E2 & L2 & S2). exists s2. split; [exact E2|]. split; [exact L2|].
      eapply shifted_trans; [exact S2|apply shifted_refl; reflexivity|]. ring.
Qed.

(** Regrouping a sum over triplets by rows. *)
Lemma regroup m (F : nat * nat * Q -> Q) ts : (forall t, In t ts -> (fst (fst t) < m)%nat) ->
  qsum (map F ts) == qsum (map (fun i => qsum (map F (filter (row_sel i) ts))) (seq 0 m)).
Proof.
  induction ts as [|t ts IH]; intros R.
  - cbn [map qsum filter]. symmetry. apply qsum_all0. reflexivity.
  - cbn [map qsum]. rewrite IH by (intros t' I; apply R; right; exact I).
    rewrite (qsum_ext (fun i => qsum (map F (filter (row_sel i) (t :: ts))))
                      (fun i => (if Nat.eqb (fst (fst t)) i then F t else 0) + qsum (map F (filter (row_sel i) ts)))).
    + rewrite qsum_add. rewrite (qsum_single m (fst (fst t)) (fun _ => F t)) by (apply R; left; reflexivity). reflexivity.
    + intros i _. cbn [filter]. unfold row_sel at 1. destruct (Nat.eqb (fst (fst t)) i); cbn [map qsum]; [reflexivity|ring].
Qed.
Lemma qsum_le {A} (f g : A -> Q) l : (forall a, In a l -> f a <= g a) -> qsum (map f l) <= qsum (map g l).
Proof.
  induction l as [|a l IH]; intros H; cbn [map qsum]; [lra|].
  pose proof (H a (or_introl eq_refl)). assert (forall b, In b l -> f b <= g b) by (intros; apply H; right; assumption).
  specialize (IH H1). lra.
Qed.
Lemma qsum_nonneg {A} (f : A -> Q) l : (forall a, In a l -> 0 <= f a) -> 0 <= qsum (map f l).
Proof.
  induction l as [|a l IH]; intros H; cbn [map qsum]; [lra|].
  pose proof (H a (or_introl eq_refl)). assert (forall b, In b l -> 0 <= f b) by (intros; apply H; right; assumption).
  specialize (IH H1). lra.
Qed.
Lemma qsum_filter {A} (b : A -> bool) (f : A -> Q) l : qsum (map f (filter b l)) == qsum (map (fun a => if b a then f a else 0) l).
Proof.
  induction l as [|a l IH]; cbn [map qsum filter]; [reflexivity|].
  destruct (b a); cbn [map qsum]; rewrite IH; [reflexivity|ring].
Qed.

Definition row_slop (P : nlp) (e : oaenv) (x y : list Q) (i : nat) : Q :=
  qsum (map (fun en => let v := nth i (e_duals e) 0 * snd en in
     if Qltb (Qabs v) (e_vtiny e) then Qabs v * Qabs (nth (fst en) y 0 - nth (fst en) x 0) else 0) (row_entries P x i)).
Lemma row_slop_nonneg P e x y i : 0 <= row_slop P e x y i.
Proof.
  apply qsum_nonneg. intros en _. cbv zeta. destruct (Qltb _ _); [|lra]. apply Qmult_le_0_compat; apply Qabs_nonneg.
Qed.
(** No coefficient is small, or the row is an upper-bounded one with positive multiplier. *)
Definition bd_good (P : nlp) (e : oaenv) (x : list Q) : Prop :=
  forall i, In i (nonlinear_rows P) -> bd_tol < Qabs (nth i (e_duals e) 0) ->
    0 < nth i (e_duals e) 0 \/
    (forall c v, In (c, v) (row_entries P x i) -> e_tiny e <= Qabs (nth i (e_duals e) 0 * v)).
Lemma take_row P e x y i : nlp_ok P -> env_ok P e -> duals_sane P e -> bd_good P e x -> (i < p_m P)%nat ->
  kept_row P e i = true -> in_bounds (e_cl e) (e_cu e) y ->
  row_ok P i y -> (0 < nth i (e_duals e) 0 -> under P x i y) -> (nth i (e_duals e) 0 < 0 -> over P x i y) ->
  qsum (map (bd_take P e x y) (filter (row_sel i) (triplets P x))) - row_slop P e x y i <= bd_term P e x i.
Proof.
  intros OK EN DS GO HI K BOX [RL RU] UN OV.
  destruct (kept_cases P e i OK DS HI K) as (NL & TOL & CASES).
  set (lam := nth i (e_duals e) 0) in *.
  set (es := map (fun p => (fst p, lam * snd p)) (row_entries P x i)).
  assert (E1 : qsum (map (bd_take P e x y) (filter (row_sel i) (triplets P x))) ==
               dsum (e_tiny e) (e_vtiny e) (glow P i) (gup P i) (e_cl e) (e_cu e) x y es).
  { unfold es, dsum. rewrite <- (sel_entries P x i OK). rewrite !map_map. apply qsum_ext.
    intros [[r c] v] I. apply filter_In in I. destruct I as [_ S]. apply Nat.eqb_eq in S. cbn [fst snd] in S. subst r.
    unfold bd_take. cbn [fst snd]. rewrite K. fold lam. reflexivity. }
  assert (E2 : qsum (map (fun p => snd p * (nth (fst p) y 0 - nth (fst p) x 0)) es) == lam * rowlin P x i y).
  { rewrite (rowlin_entries P x i y OK). unfold es. generalize (row_entries P x i) as l. clear.
    induction l as [|p l IH]; cbn [map qsum fst snd]; [ring|]. rewrite IH. ring. }
  assert (E3 : row_slop P e x y i == qsum (map (negl1 (e_vtiny e) x y) es)).
  { unfold row_slop, es. rewrite map_map. fold lam. reflexivity. }
  assert (LE : dsum (e_tiny e) (e_vtiny e) (glow P i) (gup P i) (e_cl e) (e_cu e) x y es - row_slop P e x y i <= lam * rowlin P x i y).
  { destruct (GO i (nl_rows_in P i OK HI NL) TOL) as [D|SM].
    - destruct CASES as [[_ (u & U & _)]|[D2 _]]; [|fold lam in D2; fold lam in D; lra].
      rewrite <- E2, E3. apply dsum_up; [rewrite U; reflexivity|].
      intros p I. apply in_map_iff in I. destruct I as (q & <- & I). cbn [fst].
      apply (box_entries P e x i y OK EN BOX q I).
    - assert (DE : dsum (e_tiny e) (e_vtiny e) (glow P i) (gup P i) (e_cl e) (e_cu e) x y es == lam * rowlin P x i y).
      { rewrite <- E2. unfold dsum. apply qsum_ext. intros p I. apply in_map_iff in I. destruct I as ([c v] & <- & I).
        cbn [fst snd]. unfold corner. specialize (SM c v I). fold lam in SM. apply Qleb_le in SM. rewrite SM. reflexivity. }
      rewrite DE. pose proof (row_slop_nonneg P e x y i). lra. }
  assert (FIN : lam * rowlin P x i y <= bd_term P e x i).
  { unfold bd_term, bd_side. fold lam. destruct CASES as [[D (u & U & _)]|[D (l & L & _)]]; fold lam in D.
    - assert (X : Qltb lam 0 = false) by (apply Qltb_ge; lra). rewrite X, U. rewrite U in RU. cbn in RU.
      specialize (UN D). unfold under in UN. nra.
    - assert (X : Qltb lam 0 = true) by (apply Qltb_lt; exact D). rewrite X, L. rewrite L in RL. cbn in RL.
      specialize (OV D). unfold over in OV. nra. }
  rewrite E1. lra.
Qed.

Lemma bd_obj_spec e x y n gf : length (e_cl e) = n -> length (e_cu e) = n -> length x = n ->
  forall i s, (i + length gf <= n)%nat -> (n <= length (d_cut s))%nat ->
  exists s', bd_obj i gf e x s = Ok s' /\ length (d_cut s') = length (d_cut s) /\
    shifted (d_ub s) (d_ub s') (drow 0 (d_cut s') y - drow 0 (d_cut s) y
        - dsum (e_tiny e) obj_vtiny MInf (Fin 0) (e_cl e) (e_cu e) x y (obj_entries i gf)).
Proof.
  intros L1 L2 L3. induction gf as [|v gf IH]; intros i s B LC.
  - exists s. split; [reflexivity|]. split; [reflexivity|]. apply shifted_refl. unfold dsum. cbn. ring.
  - cbn [length] in B. cbn [bd_obj].
    rewrite (rd_nth i (e_cl e) MInf) by lia. cbn [bind].
    rewrite (rd_nth i (e_cu e) PInf) by lia. cbn [bind].
    rewrite (rd_nth i x 0) by lia. cbn [bind].
    destruct (bd_step (e_tiny e) obj_vtiny v i (e_cl e) (e_cu e) MInf (Fin 0) x y s) as (s1 & E1 & LE1 & S1); [lia|left; reflexivity|].
    rewrite E1. cbn [bind]. destruct (IH (S i) s1) as (s2 & E2 & LE2 & S2); [lia|lia|].
    exists s2. split; [exact E2|]. split; [congruence|]. eapply shifted_trans; [exact S1|exact S2|].
    unfold dsum, obj_entries. cbn [length seq combine map qsum fst snd]. ring.
Qed.
Lemma map_abs_seq y : qsum (map Qabs y) == qsum (map (fun j => Qabs (nth j y 0)) (seq 0 (length y))).
Proof.
  assert (G : forall y, map Qabs y = map (fun j => Qabs (nth j y 0)) (seq 0 (length y))).
  { clear. induction y as [|a y IH]; [reflexivity|]. cbn [length seq map nth]. f_equal. rewrite <- seq_shift, map_map. exact IH. }
  rewrite <- G. reflexivity.
Qed.
Lemma drow_firstn n cut y : length cut = S n -> length y = n -> drow 0 cut y == drow 0 (firstn n cut) y.
Proof.
  intros LC LY. rewrite <- (firstn_skipn n cut) at 1. rewrite drow_app.
  assert (LF : length (firstn n cut) = n) by (rewrite firstn_length; lia). rewrite LF.
  assert (LS : length (skipn n cut) = 1%nat) by (rewrite skipn_length; lia).
  destruct (skipn n cut) as [|a [|b l]]; cbn in LS; try lia. unfold drow at 2. cbn [length seq combine map qsum fst snd].
  rewrite nth_overflow by lia. ring.
Qed.
Lemma lhs_pack_ext n cut y a : length cut = n -> length y = n -> lhs (bd_pack 0 cut) (y ++ [a]) == lhs (bd_pack 0 cut) y.
Proof. intros LC LY. apply lhs_ext. intros en I. apply pack_cols in I. apply app_nth1. lia. Qed.
Lemma slop_parts P x y : 0 <= obj_negligible P obj_vtiny x y.
Proof. apply qsum_nonneg. intros j _. destruct (Qltb _ _); [|lra]. apply Qmult_le_0_compat; apply Qabs_nonneg. Qed.

Lemma bd_start P e x y : nlp_ok P -> env_ok P e -> length x = p_n P -> duals_sane P e -> bd_good P e x ->
  exists keep ub0 s, bd_rows (p_lin P) (p_gl P) (p_gu P) (p_g P x) (e_duals e) 0 = Ok (keep, ub0) /\
    bd_loop P e x keep (triplets P x) (mkBd (repeat 0 (S (p_n P))) (Fin 0) (Fin ub0)) = Ok s /\
    length (d_cut s) = S (p_n P) /\
    ub0 == qsum (map (fun i => if kept_row P e i then bd_term P e x i else 0) (seq 0 (p_m P))) /\
    shifted (Fin ub0) (d_ub s) (drow 0 (d_cut s) y - qsum (map (bd_take P e x y) (triplets P x))).
Proof.
  intros OK EN LX DS GO. pose proof (ok_lin _ OK) as LL.
  assert (RH : forall i, (i < length (p_lin P))%nat -> bd_keep (nth i (p_lin P) true) (nth i (e_duals e) 0) = true ->
     exists v, bd_rhs (nth i (p_gl P) MInf) (nth i (p_gu P) PInf) (nth i (p_g P x) 0) (nth i (e_duals e) 0) = Ok v).
  { intros i Hi K. rewrite LL in Hi. exists (bd_term P e x i). apply (bd_rhs_sane P e x i OK DS Hi K). }
  destruct (bd_rows_spec (p_lin P) (p_gl P) (p_gu P) (p_g P x) (e_duals e) 0) as (ub0 & E & U).
  { rewrite LL. apply (ok_gl _ OK). } { rewrite LL. apply (ok_gu _ OK). }
  { rewrite LL. apply (ok_g _ OK), LX. } { rewrite LL. apply (en_du _ _ EN). } { exact RH. }
  rewrite LL in E, U.
  destruct (bd_loop_spec P e x y _ (triplets P x) OK EN LX eq_refl (fun t It => triplets_range P x t OK It))
    with (s := mkBd (repeat 0 (S (p_n P))) (Fin 0) (Fin ub0)) as (s & E2 & L2 & S2).
  { intros t It K. destruct (triplets_range P x t OK It) as [R1 R2].
    destruct (kept_cases P e _ OK DS R1 K) as (NL & TOL & CASES).
    destruct (GO _ (nl_rows_in P _ OK R1 NL) TOL) as [D|SM].
    - left. destruct CASES as [[_ (u & U' & _)]|[D2 _]]; [rewrite U'; reflexivity|lra].
    - right. apply SM with (c := snd (fst t)). rewrite <- (sel_entries P x _ OK). apply in_map_iff.
      exists t. split; [reflexivity|]. apply filter_In. split; [exact It|]. apply Nat.eqb_refl. }
  { cbn [d_cut]. apply repeat_length. }
  exists (map (kept_row P e) (seq 0 (p_m P))), ub0, s. split; [exact E|]. split; [exact E2|]. split; [exact L2|]. split.
  - rewrite U. rewrite Qplus_0_l. apply qsum_ext. intros i Hi. apply in_seq in Hi. fold (kept_row P e i).
    destruct (kept_row P e i) eqn:K; [|reflexivity]. fold (glow P i) (gup P i) (gi P i x).
    rewrite (bd_rhs_sane P e x i OK DS) by (try exact K; lia). reflexivity.
  - cbn [d_ub d_cut] in S2. eapply shifted_trans; [exact S2|apply shifted_refl; reflexivity|]. rewrite drow_zero. ring.
Qed.
Lemma bd_negl_rows P e x y : nlp_ok P ->
  qsum (map (fun i => if Qltb bd_tol (Qabs (nth i (e_duals e) 0)) then row_slop P e x y i else 0) (nonlinear_rows P)) ==
  qsum (map (fun i => if kept_row P e i then row_slop P e x y i else 0) (seq 0 (p_m P))).
Proof.
  intros OK. unfold nonlinear_rows. rewrite qsum_filter. apply qsum_ext. intros i _.
  unfold kept_row, bd_keep. destruct (nth i (p_lin P) true); cbn [negb andb]; reflexivity.
Qed.
Theorem benders_rows P e x opt : nlp_ok P -> env_ok P e -> length x = p_n P -> duals_sane P e -> bd_good P e x ->
  e_linobj e = true \/ opt = false ->
  exists c, getBendersCut P e x opt = Ok c /\ benders_valid P e x c.
Proof.
  intros OK EN LX DS GO NO. unfold getBendersCut.
  assert (X : (negb (e_linobj e) && opt)%bool = false)
    by (destruct NO as [->| ->]; [reflexivity|apply andb_false_r]). rewrite X. clear X.
  destruct (bd_start P e x x OK EN LX DS GO) as (keep & ub0 & s & E1 & E2 & LC & _ & _).
  rewrite E1. cbn [bind fst snd]. rewrite E2. cbn [bind app]. eexists. split; [reflexivity|].
  intros y alpha BOX ROWS _ _.
  destruct (bd_start P e x y OK EN LX DS GO) as (keep' & ub0' & s' & E1' & E2' & _ & U & SH).
  rewrite E1 in E1'. injection E1' as <- <-. rewrite E2 in E2'. injection E2' as <-.
  pose proof (Forall2_len _ _ _ (proj1 BOX)) as LY. rewrite (en_cl _ _ EN) in LY. symmetry in LY.
  split; [exact Logic.I|]. cbn [c_ub c_row].
  assert (LF : length (firstn (p_n P) (d_cut s)) = p_n P) by (rewrite firstn_length; lia).
  pose proof (pack_bound (firstn (p_n P) (d_cut s)) y 0) as PB. rewrite LF in PB.
  rewrite <- (drow_firstn (p_n P) (d_cut s) y LC LY) in PB.
  assert (MA := map_abs_seq y). rewrite LY in MA. rewrite <- MA in PB.
  assert (TK : qsum (map (bd_take P e x y) (triplets P x)) -
       qsum (map (fun i => if kept_row P e i then row_slop P e x y i else 0) (seq 0 (p_m P))) <= ub0).
  { rewrite (regroup (p_m P) _ _ (fun t It => proj1 (triplets_range P x t OK It))). rewrite U.
    assert (G : qsum (map (fun i => qsum (map (bd_take P e x y) (filter (row_sel i) (triplets P x)))) (seq 0 (p_m P))) <=
       qsum (map (fun i => (if kept_row P e i then bd_term P e x i else 0) + (if kept_row P e i then row_slop P e x y i else 0)) (seq 0 (p_m P)))).
    { apply qsum_le. intros i Hi. apply in_seq in Hi. destruct (kept_row P e i) eqn:K.
      - assert (HI : (i < p_m P)%nat) by lia.
        destruct (kept_cases P e i OK DS HI K) as (NL & _ & _).
        destruct (ROWS i (nl_rows_in P i OK HI NL)) as (R1 & R2 & R3).
        pose proof (take_row P e x y i OK EN DS GO HI K BOX R1 R2 R3). lra.
      - rewrite (qsum_all0 (bd_take P e x y)); [lra|]. intros t It. apply filter_In in It. destruct It as [_ S].
        apply Nat.eqb_eq in S. unfold bd_take. rewrite S, K. reflexivity. }
    rewrite qsum_add in G. lra. }
  unfold bd_slop. fold (row_slop P e x y).
  change (fun i => if Qltb bd_tol (Qabs (nth i (e_duals e) 0)) then
      qsum (map (fun en => let v := nth i (e_duals e) 0 * snd en in
         if Qltb (Qabs v) (e_vtiny e) then Qabs v * Qabs (nth (fst en) y 0 - nth (fst en) x 0) else 0)
                (row_entries P x i)) else 0)
    with (fun i => if Qltb bd_tol (Qabs (nth i (e_duals e) 0)) then row_slop P e x y i else 0).
  pose proof (bd_negl_rows P e x y OK) as NR. pose proof (slop_parts P x y) as SP.
  set (N1 := qsum (map (fun i => if Qltb bd_tol (Qabs (nth i (e_duals e) 0)) then row_slop P e x y i else 0) (nonlinear_rows P))) in *.
  set (Z := bd_zero * qsum (map Qabs y)) in *. set (N2 := obj_negligible P obj_vtiny x y) in *.
  rewrite (up_ok_eq _ _ (lhs (bd_pack 0 (firstn (p_n P) (d_cut s))) y - (N1 + Z + N2)))
    by (rewrite (lhs_pack_ext (p_n P) _ y alpha LF LY); reflexivity).
  eapply up_ok_le with (v := drow 0 (d_cut s) y - N1 - N2); [|lra].
  set (TT := qsum (map (bd_take P e x y) (triplets P x))) in *.
  rewrite (shifted_up _ _ _ (drow 0 (d_cut s) y - N1 - N2) (TT - N1 - N2) SH) by ring. cbn. lra.
Qed.
Theorem benders_objective P e x opt : nlp_ok P -> env_ok P e -> length x = p_n P ->
  (forall i, In i (nonlinear_rows P) -> Qabs (nth i (e_duals e) 0) <= bd_tol) ->
  exists c, getBendersCut P e x opt = Ok c /\ benders_valid P e x c.
Proof.
  intros OK EN LX ND.
  assert (DS : duals_sane P e) by (intros i Hi T; specialize (ND i Hi); lra).
  assert (GO : bd_good P e x) by (intros i Hi T; specialize (ND i Hi); lra).
  destruct (negb (e_linobj e) && opt)%bool eqn:OB.
  2:{ apply benders_rows; try assumption. destruct (e_linobj e); [left; reflexivity|right]. destruct opt; [discriminate OB|reflexivity]. }
  unfold getBendersCut. rewrite OB.
  assert (KN : forall i, (i < p_m P)%nat -> kept_row P e i = false).
  { intros i Hi. destruct (kept_row P e i) eqn:K; [|reflexivity]. exfalso.
    destruct (kept_cases P e i OK DS Hi K) as (NL & T & _). specialize (ND i (nl_rows_in P i OK Hi NL)). lra. }
  destruct (bd_start P e x x OK EN LX DS GO) as (keep & ub0 & s & E1 & E2 & LC & _ & _).
  rewrite E1. cbn [bind fst snd]. rewrite E2. cbn [bind app].
  assert (SN : d_cut s = repeat 0 (S (p_n P))).
  { destruct (bd_rows_spec (p_lin P) (p_gl P) (p_gu P) (p_g P x) (e_duals e) 0) as (u' & E1' & _);
      rewrite ?(ok_lin _ OK); [apply (ok_gl _ OK)|apply (ok_gu _ OK)|apply (ok_g _ OK), LX|apply (en_du _ _ EN)| |].
    { intros i Hi K. specialize (KN i Hi). unfold kept_row in KN. congruence. }
    rewrite E1 in E1'. rewrite (ok_lin _ OK) in E1'. injection E1' as Ek _. change keep with (id keep) in Ek. unfold id in Ek.
    assert (G : forall ts s0, (forall t, In t ts -> (fst (fst t) < p_m P)%nat) ->
        bd_loop P e x keep ts s0 = Ok s -> d_cut s = d_cut s0).
    { induction ts as [|[[r c] v] ts IH]; intros s0 RG H; [injection H as <-; reflexivity|]. cbn [bd_loop] in H.
      pose proof (RG _ (or_introl eq_refl)) as R1. cbn [fst] in R1.
      rewrite (rd_nth r keep false) in H by (rewrite Ek, map_length, seq_length; exact R1). cbn [bind] in H.
      assert (NK : nth r keep false = false).
      { rewrite Ek. rewrite (nth_indep _ false (bd_keep (nth 0 (p_lin P) true) (nth 0 (e_duals e) 0))) by (rewrite map_length, seq_length; exact R1).
        rewrite (map_nth (fun i => bd_keep (nth i (p_lin P) true) (nth i (e_duals e) 0)) (seq 0 (p_m P)) 0%nat r).
        rewrite seq_nth by exact R1. cbn [Nat.add]. apply (KN r R1). }
      rewrite NK in H. apply (IH s0); [intros t It; apply RG; right; exact It|exact H]. }
    apply (G (triplets P x) _ (fun t It => proj1 (triplets_range P x t OK It)) E2). }
  pose proof (ok_gf _ OK x LX) as LG.
  set (s1 := mkBd (d_cut s) (d_lb s) (Fin (- p_f P x))).
  destruct (bd_obj_spec e x x (p_n P) (p_gf P x) (en_cl _ _ EN) (en_cu _ _ EN) LX 0 s1) as (s2 & E3 & L3 & _);
    [lia|cbn [d_cut s1]; lia|].
  rewrite E3. cbn [bind]. eexists. split; [reflexivity|].
  intros y alpha BOX _ UN AL.
  pose proof (Forall2_len _ _ _ (proj1 BOX)) as LY. rewrite (en_cl _ _ EN) in LY. symmetry in LY.
  destruct (bd_obj_spec e x y (p_n P) (p_gf P x) (en_cl _ _ EN) (en_cu _ _ EN) LX 0 s1) as (s2' & E3' & _ & SH);
    [lia|cbn [d_cut s1]; lia|]. rewrite E3 in E3'. injection E3' as <-.
  cbn [d_cut s1] in L3. cbn [d_cut d_ub s1] in SH.
  split; [exact Logic.I|]. cbn [c_ub c_row].
  assert (LF : length (firstn (p_n P) (d_cut s2)) = p_n P) by (rewrite firstn_length; lia).
  pose proof (pack_bound (firstn (p_n P) (d_cut s2)) y 0) as PB. rewrite LF in PB.
  rewrite <- (drow_firstn (p_n P) (d_cut s2) y) in PB by (try exact LY; lia).
  assert (MA := map_abs_seq y). rewrite LY in MA. rewrite <- MA in PB.
  assert (D0 : drow 0 (d_cut s) y == 0) by (rewrite SN; apply drow_zero).
  assert (DL : dsum (e_tiny e) obj_vtiny MInf (Fin 0) (e_cl e) (e_cu e) x y (obj_entries 0 (p_gf P x)) - obj_negligible P obj_vtiny x y <= objlin P x y).
  { rewrite (objlin_entries P x y OK LX), (obj_negl_entries P obj_vtiny x y OK LX). apply dsum_up; [reflexivity|].
    intros [c v] I. apply (in_map fst) in I. apply obj_entries_in in I. rewrite LG in I. cbn [fst] in *.
    destruct BOX as [B1 B2]. split; [apply (nth_bounds _ _ _ MInf B1)|apply (nth_bounds _ _ _ PInf B2)]; lia. }
  set (D := dsum _ _ _ _ _ _ _ _ _) in *.
  assert (N1 : 0 <= qsum (map (fun i => if Qltb bd_tol (Qabs (nth i (e_duals e) 0)) then row_slop P e x y i else 0) (nonlinear_rows P))).
  { apply qsum_nonneg. intros i _. destruct (Qltb _ _); [apply row_slop_nonneg|lra]. }
  set (NN1 := qsum (map (fun i => if Qltb bd_tol (Qabs (nth i (e_duals e) 0)) then row_slop P e x y i else 0) (nonlinear_rows P))) in *.
  assert (BS : bd_slop P e x y == NN1 + bd_zero * qsum (map Qabs y) + obj_negligible P obj_vtiny x y) by reflexivity.
  set (Z := bd_zero * qsum (map Qabs y)) in *. set (N2 := obj_negligible P obj_vtiny x y) in *. unfold obj_under in UN.
  rewrite (up_ok_eq _ _ (- alpha + lhs (bd_pack 0 (firstn (p_n P) (d_cut s2))) y - (NN1 + Z + N2))).
  2:{ change ((p_n P, -(1)) :: bd_pack 0 (firstn (p_n P) (d_cut s2))) with ([(p_n P, -(1))] ++ bd_pack 0 (firstn (p_n P) (d_cut s2))).
      rewrite lhs_app, (lhs_pack_ext (p_n P) _ y alpha LF LY), lhs_one. rewrite app_nth2 by lia.
      rewrite LY, Nat.sub_diag. cbn [nth]. rewrite BS. ring. }
  eapply up_ok_le with (v := drow 0 (d_cut s2) y - alpha - NN1 - N2); [|lra].
  rewrite (shifted_up _ _ _ (drow 0 (d_cut s2) y - alpha - NN1 - N2) (D - alpha - NN1 - N2) SH) by (rewrite D0; ring).
  cbn. lra.
Qed.
