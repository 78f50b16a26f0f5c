(** Property theorems for branching, continued: C135-C137. *)
From Verif Require Import Base Arr Itf_Model Oad_Model Brc_Model Brc_Spec Brc_Proofs Brc_Proofs2 Brc_Proofs3 Brc_Proofs4 Brc_Props.
#[local] Open Scope Q_scope.

(** ** C135 *)
Lemma costs_ok S q cap pc os : setup_pre S q cap pc os -> exists m, pc_ok m (costs pc os) /\ (length os <= m)%nat.
Proof.
  intros HP. unfold costs. destruct (Nat.ltb_spec (length (p_un pc)) (length os)) as [Lt|Ge].
  - exists (length os). split; [|lia]. unfold pc_ok, pc_init. cbn. rewrite !repeat_length. auto.
  - exists (length (p_un pc)). split; [exact (sp_pc _ _ _ _ _ HP)|exact Ge].
Qed.
Lemma qnat_nonneg k : 0 <= qnat k.
Proof. unfold qnat. change 0 with (inject_Z 0). rewrite <- Zle_Qle. lia. Qed.
Lemma qnat_pos k : k <> O -> 0 < qnat k.
Proof. unfold qnat. intros H. change 0 with (inject_Z 0). rewrite <- Zlt_Qlt. lia. Qed.
Lemma qsum_qnat l : 0 <= qsum (map qnat l).
Proof. apply qsum_nonneg. apply Forall_forall. intros x I. apply in_map_iff in I as (k & <- & _). apply qnat_nonneg. Qed.
Lemma Qmul_pos a b : 0 < a -> 0 < b -> 0 < a * b.
Proof. intros A B. rewrite <- (Qmult_0_l b). apply Qmult_lt_compat_r; assumption. Qed.
Lemma Qdiv_pos a b : 0 < a -> 0 < b -> 0 < a / b.
Proof. intros A B. unfold Qdiv. apply Qmul_pos; [exact A|]. apply Qinv_lt_0_compat. exact B. Qed.
Lemma costs_nonneg q pc os : ps_pre q pc os -> Forall (fun t => 0 <= t) (p_ut (costs pc os)) /\ Forall (fun t => 0 <= t) (p_dt (costs pc os)).
Proof.
  intros PP. unfold costs. destruct (Nat.ltb _ _); [|exact (pp_tot _ _ _ PP)].
  split; apply Forall_forall; intros x I; apply repeat_spec in I; subst x; lra.
Qed.
Lemma per_unit_pos q pc os up i : ps_pre q pc os -> 0 < per_unit up (costs pc os) i.
Proof.
  intros PP. destruct (costs_nonneg q pc os PP) as [T1 T2]. set (p := costs pc os) in *. unfold per_unit.
  assert (T : Forall (fun t => 0 <= t) (totals up p)) by (destruct up; assumption).
  destruct (Nat.eqb (number up i p) 0) eqn:E.
  - apply Qdiv_pos; [pose proof (qsum_nonneg _ T); lra|]. pose proof (qsum_qnat (observed up p)) as X. unfold qnat in X. lra.
  - apply Nat.eqb_neq in E. apply Qdiv_pos; [|exact (qnat_pos _ E)].
    assert (X : 0 <= total up i p).
    { unfold total. fold (totals up p). destruct (Nat.lt_ge_cases i (length (totals up p))) as [L|G].
      - rewrite Forall_forall in T. apply T. apply nth_In. exact L.
      - unfold totals in G. rewrite nth_overflow by exact G. lra. }
    assert (0 < 1 # 10 ^ 30) by reflexivity. lra.
Qed.
Lemma side_nonneg q pc os up i : ps_pre q pc os -> 0 <= side_cost up (costs pc os) os i.
Proof.
  intros PP. unfold side_cost. destruct (nth_error os i) as [o|] eqn:N; [|lra]. pose proof (per_unit_pos q pc os up i PP) as P.
  destruct (pp_est _ _ _ PP i o N) as (A & B & _). apply Qmult_le_0_compat; [destruct up; assumption|lra].
Qed.
Lemma side_pos q pc os up i : ps_pre q pc os -> unsat os i -> 0 < side_cost up (costs pc os) os i.
Proof.
  intros PP (o & N & U). unfold side_cost. rewrite N. destruct (pp_est _ _ _ PP i o N) as (_ & _ & A). destruct (A U).
  apply Qmul_pos; [destruct up; assumption|exact (per_unit_pos q pc os up i PP)].
Qed.
Lemma mix W a b : 0 <= W <= 1 -> 0 <= a -> 0 <= b -> 0 <= W * a + (1 - W) * b.
Proof. intros W01 A B. assert (0 <= W * a) by (apply Qmult_le_0_compat; lra). assert (0 <= (1 - W) * b) by (apply Qmult_le_0_compat; lra). lra. Qed.
Lemma mix_pos W a b : 0 <= W <= 1 -> 0 < a -> 0 < b -> 0 < W * a + (1 - W) * b.
Proof.
  intros W01 A B. destruct (Qlt_le_dec W (1 # 2)) as [L|G].
  - assert (0 <= W * a) by (apply Qmult_le_0_compat; lra). assert (0 < (1 - W) * b) by (apply Qmul_pos; lra). lra.
  - assert (0 < W * a) by (apply Qmul_pos; lra). assert (0 <= (1 - W) * b) by (apply Qmult_le_0_compat; lra). lra.
Qed.
Lemma expected_nonneg q pc os i : ps_pre q pc os -> 0 <= expected (s_W q) (costs pc os) os i.
Proof.
  intros PP. pose proof (side_nonneg q pc os true i PP) as U. pose proof (side_nonneg q pc os false i PP) as D. pose proof (pp_W _ _ _ PP) as W. unfold expected. cbv zeta.
  repeat match goal with |- context [if ?b then _ else _] => destruct b end; try assumption; apply mix; assumption.
Qed.
Lemma expected_pos q pc os i : ps_pre q pc os -> unsat os i -> 0 < expected (s_W q) (costs pc os) os i.
Proof.
  intros PP H. pose proof (side_pos q pc os true i PP H) as U. pose proof (side_pos q pc os false i PP H) as D. pose proof (pp_W _ _ _ PP) as W. unfold expected. cbv zeta.
  repeat match goal with |- context [if ?b then _ else _] => destruct b end; try assumption; apply mix_pos; assumption.
Qed.
Lemma qmin_eq a b : qmin a b = if Qltb a b then a else b. Proof. reflexivity. Qed.
Lemma qmx_eq a b : qmx a b == if Qltb a b then b else a.
Proof. unfold qmx. destruct (Qltb a b) eqn:E1, (Qltb b a) eqn:E2; try lra; try apply Qltb_lt in E1; try apply Qltb_lt in E2; try apply Qltb_ge in E1; try apply Qltb_ge in E2; lra. Qed.
Lemma qmin_wd a a' b b' : a == a' -> b == b' -> qmin a b == qmin a' b'.
Proof.
  intros A B. unfold qmin. destruct (Qltb a b) eqn:E1, (Qltb a' b') eqn:E2; try lra; try apply Qltb_lt in E1; try apply Qltb_lt in E2; try apply Qltb_ge in E1; try apply Qltb_ge in E2; lra.
Qed.
Lemma qmx_wd a a' b b' : a == a' -> b == b' -> qmx a b == qmx a' b'.
Proof.
  intros A B. unfold qmx. destruct (Qltb b a) eqn:E1, (Qltb b' a') eqn:E2; try lra; try apply Qltb_lt in E1; try apply Qltb_lt in E2; try apply Qltb_ge in E1; try apply Qltb_ge in E2; lra.
Qed.
Lemma useful_expected q pc os m i o : pc_ok m pc -> (length os <= m)%nat -> ps_crit (s_crit q) = true -> nth_error os i = Some o -> 0 < o_inf o \/ 0 <= o_inf o ->
  exists u v, usefulness (s_crit q) (s_W q) (fst (multipliers pc)) (snd (multipliers pc)) (s_trust q) pc i o = Ok (u, v) /\
    (0 < o_inf o -> u == expected (s_W q) pc os i) /\ (u == 0 \/ u == expected (s_W q) pc os i).
Proof.
  intros (L1 & L2 & L3 & L4) Lm C N _. assert (L : (i < length os)%nat) by (apply nth_error_Some; congruence).
  unfold usefulness. destruct (rd_lt i (p_un pc)) as (nu & -> & Nu); [lia|]. destruct (rd_lt i (p_dn pc)) as (nd & -> & Nd); [lia|]. cbn [bind]. rewrite C.
  destruct (rd_lt i (p_ut pc)) as (su & -> & Su); [lia|]. destruct (rd_lt i (p_dt pc)) as (sd & -> & Sd); [lia|]. cbn [bind]. cbv zeta.
  assert (Xu : number true i pc = nu) by exact (nth_error_nth _ _ O Nu). assert (Xd : number false i pc = nd) by exact (nth_error_nth _ _ O Nd).
  assert (Tu : total true i pc = su) by exact (nth_error_nth _ _ 0 Su). assert (Td : total false i pc = sd) by exact (nth_error_nth _ _ 0 Sd).
  set (ue := if Nat.eqb nu 0 then o_up o * fst (multipliers pc) else o_up o * (su + (1 # 10 ^ 30)) / qnat nu).
  set (de := if Nat.eqb nd 0 then o_dn o * snd (multipliers pc) else o_dn o * (sd + (1 # 10 ^ 30)) / qnat nd).
  assert (UE : ue == side_cost true pc os i).
  { unfold ue, side_cost, per_unit, multipliers. rewrite N, Xu, Tu. cbn [fst totals observed]. destruct (Nat.eqb nu 0); [reflexivity|]. unfold qnat, Qdiv. ring. }
  assert (DE : de == side_cost false pc os i).
  { unfold de, side_cost, per_unit, multipliers. rewrite N, Xd, Td. cbn [snd totals observed]. destruct (Nat.eqb nd 0); [reflexivity|]. unfold qnat, Qdiv. ring. }
  clearbody ue de.
  assert (MN : qmin ue de == (if Qltb (side_cost true pc os i) (side_cost false pc os i) then side_cost true pc os i else side_cost false pc os i)).
  { rewrite (qmin_wd _ _ _ _ UE DE). reflexivity. }
  assert (MX : qmx ue de == (if Qltb (side_cost true pc os i) (side_cost false pc os i) then side_cost false pc os i else side_cost true pc os i)).
  { rewrite (qmx_wd _ _ _ _ UE DE). apply qmx_eq. }
  eexists _, _. split; [reflexivity|]. unfold expected. cbv zeta. rewrite Xu, Xd.
  destruct (Nat.eqb nu 0 || Nat.eqb nd 0)%bool.
  - destruct (Qeq_bool (o_inf o) 0) eqn:Q0.
    + apply Qeq_bool_iff in Q0. split; [intros P; lra|left; reflexivity].
    + destruct (Qle_bool (1 # 2) (s_W q)); split; auto.
  - rewrite MN, MX. split; [reflexivity|right; reflexivity].
Qed.
Theorem C135_refuted : ~ C135_full.
Proof.
  intros H. set (os := [ex_obj (1 # 2) 0; ex_obj (1 # 2) 0; ex_obj 0 0]). set (q := ex_opts IncrPs 1 0).
  destruct (H inssort q 3%nat ex_pc os) as (r & E & _ & P).
  { apply ex_pre; [discriminate|reflexivity|cbn; lra|objs|objs]. }
  { constructor; [cbn; lra|split; objs|]. intros [|[|[|i]]] o N; cbn in N; try (destruct i; discriminate N); injection N as <-; cbn; repeat split; try lra; intros; lra. }
  { apply not_hopeless. repeat constructor; reflexivity. } { reflexivity. } { cbn. lia. }
  destruct (P eq_refl) as (l & F & Ln & _ & _ & _ & K & _).
  assert (R : exists rv, setupList inssort q true 3 ex_pc os = Ok (rv, ex_pc) /\ r_nol rv = 1%nat /\ firstn 1 (r_list rv) = [Some 0%nat]).
  { eexists. split; [vm_compute; reflexivity|split; reflexivity]. }
  destruct R as (rv & E2 & Nv & Ev). assert (r = rv) by congruence. subst rv. clear E E2. rewrite Nv, Ev in F. destruct l as [|a [|b l]]; try discriminate. injection F as <-.
  assert (X : Qge' (expected (s_W q) (costs ex_pc os) os 1) (expected (s_W q) (costs ex_pc os) os 0)).
  { apply K; [left; reflexivity| |intros [X|[]]; discriminate]. split; [eexists; split; [reflexivity|reflexivity]|].
    intros j (o & Nj & _). assert (J : (j < 3)%nat) by (change 3%nat with (length os); apply nth_error_Some; congruence).
    destruct j as [|[|[|j]]]; cbn; try lia. }
  vm_compute in X. apply X. reflexivity.
Qed.
Print Assumptions C135_refuted.
(** The objects of the best priority with the largest expected change are kept; "worst" only reverses
    the order of those kept. *)
Theorem C135_partial : forall S q cap pc os, setup_pre S q cap pc os -> ps_pre q pc os -> ~ hopeless os ->
  s_frac q == 0 -> (0 < Nat.max (s_strong q) (s_root q))%nat -> s_crit q = DecrPs \/ s_crit q = IncrPs ->
  exists r, setupList S q true cap pc os = Ok (r, costs pc os) /\
    list_holds_by (expected (s_W q) (costs pc os) os) os Qle (if match s_crit q with IncrPs => true | _ => false end then Qge' else Qle) (Nat.max (s_strong q) (s_root q)) r.
Proof.
  intros S q cap pc os HP PP NH F0 K C. assert (CP : ps_crit (s_crit q) = true) by (destruct C as [-> | ->]; reflexivity).
  destruct (costs_ok S q cap pc os HP) as (m & PO & Lm).
  destruct (by_key S q cap pc os (expected (s_W q) (costs pc os) os) HP NH F0 K) as (r & E & H).
  - intros uf _ _ UF. change (pc_used pc os) with (costs pc os) in UF.
    assert (X : forall i, (0 <= uf i) /\ (unsat os i -> uf i == expected (s_W q) (costs pc os) os i)).
    { intros i. rewrite UF. unfold ufn. destruct (nth_error os i) as [o|] eqn:N.
      - assert (I0 : 0 <= o_inf o) by (pose proof (sp_inf _ _ _ _ _ HP) as I; rewrite Forall_forall in I; exact (I o (nth_error_In _ _ N))).
        destruct (useful_expected q (costs pc os) os m i o PO Lm CP N (or_intror I0)) as (u & v & EU & A & B). rewrite EU. split.
        + pose proof (expected_nonneg q pc os i PP). destruct B as [B|B]; lra.
        + intros (o' & N' & Q0). assert (o' = o) by congruence. subst o'. exact (A Q0).
      - split; [lra|]. intros (o' & N' & _). congruence. }
    split; [intros i; apply X|]. intros i U. split; [apply X; exact U|]. exact (expected_pos q pc os i PP U).
  - exists r. split; [exact E|]. destruct C as [C|C]; rewrite C in *; exact H.
Qed.
Print Assumptions C135_partial.
Example C135_ex :
  ps_pre (ex_opts DecrPs 2 0) ex_pc [ex_obj (1 # 4) 1; ex_obj (1 # 2) 1; ex_obj (1 # 3) 1] /\
  (do ' (r, _) <- setupList inssort (ex_opts DecrPs 2 0) true 3 ex_pc [ex_obj (1 # 4) 1; ex_obj (1 # 2) 1; ex_obj (1 # 3) 1]; Ok (firstn (r_nol r) (r_list r)))
    = Ok [Some 0%nat; Some 1%nat] /\
  (do ' (r, _) <- setupList inssort (ex_opts IncrPs 2 0) true 3 ex_pc [ex_obj (1 # 4) 1; ex_obj (1 # 2) 1; ex_obj (1 # 3) 1]; Ok (firstn (r_nol r) (r_list r)))
    = Ok [Some 1%nat; Some 0%nat].
Proof.
  split; [|split; vm_compute; reflexivity]. constructor; [cbn; lra|split; objs|].
  intros [|[|[|i]]] o N; cbn in N; try (destruct i; discriminate N); injection N as <-; cbn; repeat split; intros; lra.
Qed.

(** ** C136, C137 *)
Lemma split_more q w pc mk n L : pc_ok n pc -> forall k i t t', (forall j, (i <= j < i + k)%nat -> exists o, nth_error L j = Some (Some o) /\ (o < n)%nat) ->
  split q w pc mk k i L t = Ok t' ->
  t_cands t' = t_cands t ++ map mk (to_try q w pc L (seq i k)) /\
  ((t_best t' = t_best t /\ t_way t' = t_way t) \/ exists o, t_best t' = Some o /\ t_way t' = trusted_way pc (mk o) o).
Proof.
  intros (L1 & L2 & L3 & L4). induction k as [|k IH]; intros i t t' HL E; cbn [split] in E.
  - injection E as <-. cbn. rewrite app_nil_r. auto.
  - destruct (HL i ltac:(lia)) as (o & No & Lo). unfold rd at 1 in E. rewrite No in E. cbn [bind] in E.
    destruct (rd_lt o (p_un pc)) as (nu & Eu & Nu); [lia|]. destruct (rd_lt o (p_dn pc)) as (nd & Ed & Nd); [lia|]. rewrite Eu, Ed in E. cbn [bind] in E.
    assert (Xu : number true o pc = nu) by exact (nth_error_nth _ _ O Nu). assert (Xd : number false o pc = nd) by exact (nth_error_nth _ _ O Nd).
    assert (HL' : forall j, (S i <= j < S i + k)%nat -> exists o0, nth_error L j = Some (Some o0) /\ (o0 < n)%nat) by (intros j Hj; apply HL; lia).
    match type of E with (if ?b then _ else _) = _ => assert (B : b = untrusted q w pc i o) end.
    { unfold untrusted. rewrite Xu, Xd. destruct (q_isroot q); cbn [negb andb]; [rewrite ?orb_false_r; reflexivity|]. rewrite orb_false_r.
      f_equal. destruct (Nat.ltb_spec nu (w_trusted w)), (Nat.ltb_spec nd (w_trusted w)), (Nat.ltb_spec (Nat.min nu nd) (w_trusted w)); cbn [orb]; try reflexivity; lia. }
    rewrite B in E. cbn [seq]. unfold to_try at 1. cbn [flat_map]. rewrite No. fold (to_try q w pc L (seq (S i) k)). destruct (untrusted q w pc i o).
    + apply IH in E; [|exact HL']. cbn [t_cands t_best t_way] in E. destruct E as (E1 & E2). split; [|exact E2]. rewrite E1, <- app_assoc. reflexivity.
    + destruct (rd_lt o (p_ut pc)) as (tu & Etu & Ntu); [lia|]. destruct (rd_lt o (p_dt pc)) as (td & Etd & Ntd); [lia|]. rewrite Etu, Etd in E. cbn [bind] in E. cbv zeta in E.
      assert (Tu : total true o pc = tu) by exact (nth_error_nth _ _ 0 Ntu). assert (Td : total false o pc = td) by exact (nth_error_nth _ _ 0 Ntd).
      match type of E with (if ?b then _ else _) = _ => destruct b end.
      * apply IH in E; [|exact HL']. cbn [t_cands t_best t_way] in E. destruct E as (E1 & E2). split; [exact E1|]. right.
        destruct E2 as [(E2 & E3)|E2]; [|exact E2]. exists o. split; [exact E2|]. rewrite E3. unfold trusted_way, own_cost, ngt, avg. rewrite Xu, Xd, Tu, Td. unfold qnat.
        destruct (Nat.eqb nu 0), (Nat.eqb nd 0); reflexivity.
      * apply IH in E; [|exact HL']. exact E.
Qed.
Lemma look_way q cut mk pref fixv : forall rs p p', look_all q cut mk pref fixv rs p = Ok p' ->
  (y_best p' = y_best p /\ y_way p' = y_way p) \/ exists r, In r rs /\ y_best p' = Some (g_obj r) /\ y_way p' = tried_way cut (q_orig q) pref r.
Proof.
  induction rs as [|r rs IH]; intros p p' E; cbn [look_all] in E; [injection E as <-; auto|]. apply bind_ok in E as (p1 & E1 & E2). unfold look_one in E1.
  apply bind_ok in E1 as ([ue pa] & EA & E1). apply bind_ok in E1 as ([de pb] & EB & E1).
  assert (A : ue = side cut (q_orig q) (g_ust r) (g_uch r) /\ y_best pa = y_best p /\ y_way pa = y_way p).
  { rewrite <- side_ok. destruct (Z.eqb (g_ust r) 1); [injection EA as <- <-; auto|]. apply bind_ok in EA as (u & _ & EA). injection EA as <- <-. auto. }
  assert (B : de = side cut (q_orig q) (g_dst r) (g_dch r) /\ y_best pb = y_best p /\ y_way pb = y_way p).
  { rewrite <- side_ok. destruct A as (_ & A1 & A2). destruct (Z.eqb (g_dst r) 1); [injection EB as <- <-; auto|]. apply bind_ok in EB as (u & _ & EB). injection EB as <- <-. auto. }
  destruct A as (UE & _), B as (DE & B1 & B2). destruct (ext_ltb _ _).
  - injection E1 as <-. apply IH in E2. cbn [y_best y_way] in E2. right. destruct E2 as [(X & Y)|(r' & I & X)].
    + exists r. split; [left; reflexivity|]. split; [exact X|]. rewrite Y. unfold tried_way. rewrite <- UE, <- DE. reflexivity.
    + exists r'. split; [right; exact I|exact X].
  - injection E1 as <-. apply IH in E2. destruct E2 as [(X & Y)|(r' & I & X)]; [left; split; congruence|right; exists r'; split; [right; exact I|exact X]].
Qed.
(** The two parts of chooseVariable. *)
Lemma choose_inv q w n mk pref fixv slv late uns L s x : choose_pre q n mk uns L s -> uns <> 0%Z -> chooseVariable q w n mk pref fixv slv late uns L s = Ok x ->
  exists t, split q w (v_pc s) mk (looked q w uns (v_done s)) 0 L {| t_best := None; t_way := -1; t_val := MInf; t_cands := [] |} = Ok t /\
    t_cands t = map mk (to_try q w (v_pc s) L (seq 0 (looked q w uns (v_done s)))) /\
    ((t_cands t = [] /\ x_rs x = [] /\ rd 0 L = Ok (x_best x) /\ x_way x = t_way t) \/
     (t_cands t <> [] /\ exists rc s', doStrongBranching q n slv late (t_cands t) s = Ok (rc, x_rs x, s') /\
       ((rc = 3%Z /\ rd 0 L = Ok (x_best x) /\ x_way x = 0%Z) \/
        (x_best x = t_best t /\ x_way x = t_way t) \/
        exists r, In r (x_rs x) /\ x_best x = Some (g_obj r) /\ x_way x = tried_way (v_cut s') (q_orig q) pref r))).
Proof.
  intros [(CL & CO & CM) NL HP HD] U E. unfold chooseVariable in E. rewrite (proj2 (Z.eqb_neq uns 0) U) in E. cbv zeta in E.
  fold (looked q w uns (v_done s)) in E. apply bind_ok in E as (t & ET & E). exists t. split; [exact ET|].
  assert (LK : (looked q w uns (v_done s) <= Z.to_nat uns)%nat) by (unfold looked; lia).
  assert (HL : forall j, (0 <= j < 0 + looked q w uns (v_done s))%nat -> exists o0, nth_error L j = Some (Some o0) /\ (o0 < n)%nat) by (intros j Hj; apply CO; lia).
  destruct (split_more q w (v_pc s) mk n L HP _ _ _ _ HL ET) as (TC & _). cbn [t_cands app] in TC. split; [exact TC|].
  destruct (t_cands t) as [|c cs] eqn:Ec.
  - left. apply bind_ok in E as (c0 & E0 & E). injection E as <-. auto.
  - right. split; [discriminate|]. apply bind_ok in E as ([[rc rs] s'] & ES & E). destruct (Z.leb 0 rc && Z.leb rc 2)%bool eqn:Rg.
    + apply bind_ok in E as (p & EP & E). injection E as <-. cbn [x_rs x_best x_way]. exists rc, s'. split; [exact ES|]. right.
      apply look_way in EP. cbn [y_best y_way] in EP. exact EP.
    + destruct (Z.eqb_spec rc 3) as [R3|R3].
      * apply bind_ok in E as (c0 & E0 & E). injection E as <-. cbn [x_rs x_best x_way]. exists rc, s'. auto.
      * injection E as <-. cbn [x_rs x_best x_way]. exists rc, s'. auto.
Qed.
(** Everything trusted and the list sorted by fractionality: the first object is taken, with the
    direction of the object of largest estimate. *)
Definition ex_c2 (o : nat) : cand := {| d_obj := o; d_up := 1 # 2; d_dn := 1 # 2; d_bound := true; d_do := fun _ b => b |}.
Definition ex_s2 : sb := {| v_b := [(0, 1); (0, 1)]; v_cut := PInf; v_good := PInf;
  v_pc := {| p_ut := [2; 8]; p_un := [2; 2]%nat; p_dt := [1; 16]; p_dn := [2; 2]%nat |}; v_done := 0; v_fix := 0 |}.
Definition ex_w2 : copts := {| w_strong := 5; w_root := 5; w_trusted := 2; w_min := 0; w_only := false; w_nnt := 0 |}.
Lemma ex_pre2 : choose_pre (ex_q false 0) 2 ex_c2 2 [Some 0%nat; Some 1%nat] ex_s2.
Proof.
  constructor; [|discriminate|repeat split|reflexivity]. split; [cbn; lia|]. split.
  - intros [|[|i]] Hi; [exists 0%nat|exists 1%nat|cbn in Hi; lia]; split; [reflexivity|lia|reflexivity|lia].
  - intros o _. repeat split; reflexivity.
Qed.
Theorem C136_refuted : ~ C136_full.
Proof.
  intros H.
  assert (R : exists x, chooseVariable (ex_q false 0) ex_w2 2 ex_c2 (fun _ => None) false (fun _ _ _ => fine) (fun _ => false) 2 [Some 0%nat; Some 1%nat] ex_s2 = Ok x /\
    x_best x = Some 0%nat /\ x_way x = 1%Z /\ x_rs x = []) by (eexists; split; [vm_compute; reflexivity|auto]).
  destruct R as (x & E & B & W & RS).
  destruct (H _ _ _ _ _ _ _ _ _ _ _ x 0%nat ex_pre2 (fun _ => eq_refl) E B ltac:(rewrite W; discriminate)) as ((cut & _ & [(r & I & _)|X]) & _).
  - rewrite RS in I. contradiction.
  - rewrite W in X. vm_compute in X. discriminate X.
Qed.
Print Assumptions C136_refuted.
(** What is chosen: a tried object with its own direction, or the trusted object of largest estimate
    with its own direction; except that when nothing is tried it is the first object of the list, with
    the direction of the trusted object of largest estimate, or none (-1) if there is no estimate. *)
Theorem C136_partial : forall q w n mk pref fixv solve late uns L s x o, choose_pre q n mk uns L s -> uns <> 0%Z -> (forall k, late k = false) ->
  chooseVariable q w n mk pref fixv solve late uns L s = Ok x -> x_best x = Some o ->
  (x_rs x <> [] -> exists cut, cut_from solve (v_cut s) cut /\ right_way q cut (v_pc s) mk pref (x_rs x) o (x_way x)) /\
  (to_try q w (v_pc s) L (seq 0 (looked q w uns (v_done s))) = [] -> x_rs x = [] /\ nth_error L 0 = Some (Some o) /\
     ((x_way x = (-1)%Z /\ forall j o', (j < looked q w uns (v_done s))%nat -> nth_error L j = Some (Some o') -> estimate q (v_pc s) (mk o') o' = None) \/
      exists o', best_estimate q w (v_pc s) mk uns L (v_done s) o' /\ x_way x = trusted_way (v_pc s) (mk o') o')).
Proof.
  intros q w n mk pref fixv solve late uns L s x o HP U LT E B.
  destruct (choose_inv q w n mk pref fixv solve late uns L s x HP U E) as (t & ET & TC & D). pose proof HP as [(CL & CO & CM) NL PC HD].
  assert (LK : (looked q w uns (v_done s) <= Z.to_nat uns)%nat) by (unfold looked; lia).
  assert (HL : forall j, (0 <= j < 0 + looked q w uns (v_done s))%nat -> exists o0, nth_error L j = Some (Some o0) /\ (o0 < n)%nat) by (intros j Hj; apply CO; lia).
  destruct (split_more q w (v_pc s) mk n L PC _ _ _ _ HL ET) as (_ & TW). cbn [t_best t_way] in TW.
  destruct (split_ok q w (v_pc s) mk n PC L (looked q w uns (v_done s)) 0 {| t_best := None; t_way := -1; t_val := MInf; t_cands := [] |} [] []) as (t0 & T & C & E0 & V & TP & EC & IN);
    [lia|exact HL|left; auto|intros o' v []|reflexivity|]. assert (t0 = t) by congruence. subst t0.
  split.
  - intros NR. destruct D as [(_ & X & _)|(_ & rc & s' & ES & D)]; [contradiction|].
    assert (HCs : Forall (c_ok n) (t_cands t)).
    { rewrite EC. apply Forall_forall. intros c Ic. apply in_map_iff in Ic. destruct Ic as (o' & <- & Io).
      assert (Lo : (o' < n)%nat). { assert (X : In o' T \/ In o' C) by auto. apply IN in X. destruct X as [[]|[[]|(j & Hj & Nj)]]. destruct (HL j Hj) as (o2 & N2 & L2). congruence. }
      destruct (CM o' Lo) as (M1 & M2). split; [rewrite M1; exact Lo|exact M2]. }
    unfold doStrongBranching in ES.
    destruct (strong_ok q n solve late (v_b s) (v_cut s) HD (t_cands t) 0 0 MInf 0 [] s HCs PC (same_refl _) (or_introl eq_refl)) as
      [(X & _)|(rc' & rs & s2 & X & A1 & A2 & A3 & A4 & A5 & A6 & A7 & A8 & A9 & A10 & A11)]; [congruence|]. cbn [app] in X. rewrite X in ES. injection ES as <- Ers <-.
    assert (NL3 : rc' <> 3%Z).
    { destruct rs as [|r0 rs0]; [congruence|]. rewrite LT in A9. destruct A9 as (-> & _). pose proof (code_range (r0 :: rs0)). lia. }
    exists (v_cut s2). split; [exact A3|]. destruct D as [(D & _)|[(D1 & D2)|(r & I & D1 & D2)]]; [contradiction| |].
    + right. destruct TW as [(W1 & _)|(o' & W1 & W2)]; [congruence|]. assert (o' = o) by congruence. subst o'. congruence.
    + left. exists r. split; [exact I|]. split; [congruence|exact D2].
  - intros NT. rewrite NT in TC. cbn [map] in TC.
    destruct D as [(_ & RS & R0 & W)|(NE & _)]; [|contradiction]. split; [exact RS|].
    split; [rewrite B in R0; unfold rd in R0; destruct (nth_error L 0); [congruence|discriminate R0]|].
    assert (CN : C = []) by (destruct C; [reflexivity|rewrite EC in TC; discriminate TC]). subst C.
    assert (ALL : forall j o', (j < looked q w uns (v_done s))%nat -> nth_error L j = Some (Some o') -> In o' T).
    { intros j o' Hj Nj. assert (X : In o' T \/ In o' []) by (apply IN; right; right; exists j; split; [lia|exact Nj]). destruct X as [X|[]]; exact X. }
    rewrite W. destruct V as [(V1 & V2)|(o1 & v & v' & I1 & V1 & V2 & V3 & V4)].
    + left. destruct TW as [(_ & W2)|(o' & W1 & _)]; [|congruence]. split; [exact W2|]. intros j o' Hj Nj. destruct (estimate q (v_pc s) (mk o') o') as [v|] eqn:EE; [|reflexivity].
      pose proof (TP o' v (ALL j o' Hj Nj) EE) as X. rewrite V2 in X. discriminate X.
    + right. exists o1. split.
      * exists v'. split; [exact V3|]. intros j o' v'' Hj Nj EE. pose proof (TP o' v'' (ALL j o' Hj Nj) EE) as X. rewrite V2 in X. cbn [ext_ltb] in X. apply Qltb_ge in X. lra.
      * destruct TW as [(W1 & _)|(o' & W1 & W2)]; [congruence|]. assert (o' = o1) by congruence. subst o'. exact W2.
Qed.
Print Assumptions C136_partial.
(** Trusted objects 0 and 1, the second with the larger estimate; then the same with a preferred way and
    strong branching on both. *)
Example C136_ex :
  (do x <- chooseVariable (ex_q false 0) ex_w2 2 ex_c2 (fun _ => None) false (fun _ _ _ => fine) (fun _ => false) 2 [Some 1%nat; Some 0%nat] ex_s2; Ok (x_best x, x_way x)) = Ok (Some 1%nat, 1%Z) /\
  (do x <- chooseVariable (ex_q false 0) ex_w 2 ex_c2 (fun o => if Nat.eqb o 0 then Some 1%Z else None) false
     (fun i up _ => {| h_opt := true; h_inf := false; h_lim := false; h_obj := if up then 7 else 3; h_feas := false |}) (fun _ => false) 2 [Some 0%nat; Some 1%nat] ex_s2;
   Ok (x_best x, x_way x, length (x_rs x))) = Ok (Some 0%nat, 1%Z, 2%nat).
Proof. split; vm_compute; reflexivity. Qed.

(** C137: the objects tried are the first ones of those to be tried, in order; all of them unless the time
    is over or the look-ahead stops; none exactly when there are none to try. *)
Theorem C137 : forall q w n mk pref fixv solve late uns L s x, choose_pre q n mk uns L s -> uns <> 0%Z ->
  chooseVariable q w n mk pref fixv solve late uns L s = Ok x ->
  map g_obj (x_rs x) = firstn (length (x_rs x)) (to_try q w (v_pc s) L (seq 0 (looked q w uns (v_done s)))) /\
  ((forall k, late k = false) -> q_isroot q = true \/ q_look q = O -> map g_obj (x_rs x) = to_try q w (v_pc s) L (seq 0 (looked q w uns (v_done s)))) /\
  (x_rs x = [] <-> to_try q w (v_pc s) L (seq 0 (looked q w uns (v_done s))) = []).
Proof.
  intros q w n mk pref fixv solve late uns L s x HP U E.
  destruct (choose_inv q w n mk pref fixv solve late uns L s x HP U E) as (t & ET & TC & D). pose proof HP as [(CL & CO & CM) NL PC HD].
  set (l := to_try q w (v_pc s) L (seq 0 (looked q w uns (v_done s)))) in *.
  assert (LK : (looked q w uns (v_done s) <= Z.to_nat uns)%nat) by (unfold looked; lia).
  assert (Ln : forall o, In o l -> (o < n)%nat).
  { intros o I. unfold l, to_try in I. apply in_flat_map in I as (j & Ij & Io). apply in_seq in Ij. destruct (CO j ltac:(lia)) as (o' & No & Lo). rewrite No in Io.
    destruct (untrusted q w (v_pc s) j o'); [destruct Io as [<-|[]]; exact Lo|contradiction]. }
  assert (MO : forall l', (forall o, In o l' -> (o < n)%nat) -> map d_obj (map mk l') = l').
  { induction l' as [|a l' IH]; intros H; [reflexivity|]. cbn [map]. f_equal; [apply CM, H; left; reflexivity|apply IH; intros o I; apply H; right; exact I]. }
  destruct D as [(T0 & RS & _)|(NE & rc & s' & ES & _)].
  - rewrite TC in T0. assert (X : l = []) by (destruct l; [reflexivity|discriminate T0]). rewrite RS, X. split; [reflexivity|]. split; [reflexivity|tauto].
  - assert (HCs : Forall (c_ok n) (t_cands t)).
    { rewrite TC. apply Forall_forall. intros c Ic. apply in_map_iff in Ic. destruct Ic as (o' & <- & Io). destruct (CM o' (Ln o' Io)) as (M1 & M2). split; [rewrite M1; exact (Ln o' Io)|exact M2]. }
    unfold doStrongBranching in ES.
    destruct (strong_ok q n solve late (v_b s) (v_cut s) HD (t_cands t) 0 0 MInf 0 [] s HCs PC (same_refl _) (or_introl eq_refl)) as
      [(X & _)|(rc' & rs & s2 & X & A1 & A2 & A3 & A4 & A5 & A6 & A7 & A8 & A9 & A10 & A11)]; [congruence|]. cbn [app] in X. rewrite X in ES. injection ES as _ <- _.
    assert (F : map g_obj rs = firstn (length rs) l) by (rewrite A4, TC, firstn_map, MO; [reflexivity|]; intros o I; apply Ln; rewrite <- (firstn_skipn (length rs) l); apply in_app_iff; left; exact I).
    assert (LL : length (t_cands t) = length l) by (rewrite TC; apply map_length).
    split; [exact F|]. split.
    + intros LT M. rewrite F. replace (length rs) with (length l); [apply firstn_all|].
      assert (Y : length rs = length (t_cands t)); [|lia]. destruct rs as [|r0 rs0]; [destruct A9 as (_ & Full & _); exact (Full M)|]. rewrite LT in A9. destruct A9 as (_ & Full & _). exact (Full M).
    + split; [|intros X0; rewrite X0 in TC; contradiction]. intros ->. exfalso. apply NE.
      destruct (t_cands t) as [|c cs]; [reflexivity|]. exfalso. cbn [strong] in X.
      apply bind_ok in X as ([[[a1 a2] a3] a4] & _ & X). apply bind_ok in X as ([[[b1 b2] b3] b4] & _ & X). cbv zeta in X.
      cbn [app] in X. destruct (late 0%nat); [injection X as _ X _; discriminate X|].
      set (sx := {| v_b := v_b b4; v_cut := v_cut b4; v_good := v_good b4; v_pc := v_pc b4; v_done := S (v_done b4); v_fix := if ((Z.eqb a1 1 || Z.eqb b1 1) && negb (Z.eqb a1 1 && Z.eqb b1 1))%bool then S (v_fix b4) else v_fix b4 |}) in X.
      clearbody sx. match type of X with context [ [?h] ] => set (h0 := h) in X end. clearbody h0.
      assert (G : forall cs i rc best tr s0 rc' s', strong q n i solve late cs rc best tr [h0] s0 = Ok (rc', [], s') -> False).
      { assert (G : forall cs i rc best tr rs0 s0 rc' rs' s', strong q n i solve late cs rc best tr rs0 s0 = Ok (rc', rs', s') -> (length rs0 <= length rs')%nat).
        { clear. induction cs as [|c cs IH]; intros i rc best tr rs0 s0 rc' rs' s' H; cbn [strong] in H; [injection H as _ <- _; lia|].
          apply bind_ok in H as ([[[a1 a2] a3] a4] & _ & H). apply bind_ok in H as ([[[b1 b2] b3] b4] & _ & H). cbv zeta in H.
          match type of H with context [rs0 ++ [?h]] => set (r := rs0 ++ [h]) in H; assert (LR : length r = S (length rs0)) by (unfold r; rewrite app_length; cbn; lia) end. clearbody r.
          destruct (late i); [injection H as _ <- _; lia|]. destruct (_ && _)%bool; [|apply IH in H; lia]. apply bind_ok in H as (u & _ & H).
          destruct (ext_ltb _ _); [apply IH in H; lia|]. destruct (Nat.leb _ _); [injection H as _ <- _; lia|apply IH in H; lia]. }
        intros cs0 i rc0 bst tr s0 rc1 s3 H. apply G in H. cbn in H. lia. }
      destruct (_ && _)%bool; [|exact (G _ _ _ _ _ _ _ _ X)]. apply bind_ok in X as (u & _ & X).
      destruct (ext_ltb _ _); [exact (G _ _ _ _ _ _ _ _ X)|]. destruct (Nat.leb _ _); [injection X as _ X _; discriminate X|exact (G _ _ _ _ _ _ _ _ X)].
Qed.
Print Assumptions C137.
(** Object 1 has been observed up only, object 0 often. *)
Example C137_ex :
  to_try (ex_q false 0) ex_w2 {| p_ut := [2; 8]; p_un := [2; 2]%nat; p_dt := [1; 0]; p_dn := [2; 0]%nat |} [Some 0%nat; Some 1%nat] (seq 0 2) = [1%nat] /\
  to_try (ex_q true 0) ex_w2 {| p_ut := [2; 8]; p_un := [2; 2]%nat; p_dt := [1; 0]; p_dn := [2; 0]%nat |} [Some 0%nat; Some 1%nat] (seq 0 2) = [].
Proof. split; reflexivity. Qed.
