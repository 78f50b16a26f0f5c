(** Proofs about the cut generators around the LP relaxation. *)
From Verif Require Import Base Arr Oad_Model Oad_Proofs Ecp_Model Ecp_Spec Brc_Proofs.
#[local] Open Scope Q_scope.

(** * EcpCuts *)
Section E.
Context {C : Type} (lp : list C -> lpres) (x0 : list Q) (obj0 : Q) (oa : list Q -> option (list Q) -> list C)
        (viol : list Q -> Q -> outcome Q) (abs_tol rel_tol : Q) (ov : bool).
Let t := if ov then Some x0 else None.
Notation cuts := (cuts_at oa t).
Notation visit := (visited lp x0 oa t).
Definition viol_at (xs : list (list Q)) (i : nat) (x : list Q) (v : Q) : Prop := viol x (obj_at lp obj0 oa t xs i) = Ok v.
Definition all_worth (orig : Q) (xs : list (list Q)) : Prop :=
  forall i x, nth_error xs i = Some x -> exists v, viol_at xs i x v /\ worth abs_tol rel_tol orig v.

Lemma cuts_snoc xs x : cuts (xs ++ [x]) = cuts xs ++ oa x t.
Proof. unfold cuts_at. rewrite map_app, concat_app. cbn. rewrite app_nil_r. reflexivity. Qed.
Lemma install_ok l cs new : installCuts C l (cs ++ new) (length (cs ++ new) - length cs) = l ++ new.
Proof.
  unfold installCuts. f_equal. rewrite app_length.
  replace (length cs + length new - (length cs + length new - length cs))%nat with (length cs) by lia.
  rewrite skipn_app, skipn_all, Nat.sub_diag. reflexivity.
Qed.
Lemma visit_snoc xs x : visit xs -> (xs = [] -> x = x0) -> (xs <> [] -> exists ob, lp (cuts xs) = LpSol x ob) -> visit (xs ++ [x]).
Proof.
  intros [V1 V2] H1 H2. destruct xs as [|y xs].
  - split; cbn; intros; [injection H as <-; auto|]. destruct i; discriminate.
  - split; [intros z Hz; apply V1; exact Hz|]. intros i z Hz. set (l := y :: xs) in *.
    destruct (Nat.lt_ge_cases (S i) (length l)) as [L|L].
    + rewrite nth_error_app1 in Hz by exact L. rewrite firstn_app. replace (S i - length l)%nat with 0%nat by lia.
      cbn [firstn]. rewrite app_nil_r. apply V2, Hz.
    + rewrite nth_error_app2 in Hz by exact L. destruct (S i - length l)%nat as [|k] eqn:K; [|destruct k; discriminate].
      cbn in Hz. injection Hz as <-. replace (S i) with (length l) by lia.
      rewrite firstn_app, firstn_all, Nat.sub_diag. cbn [firstn]. rewrite app_nil_r. apply H2. discriminate.
Qed.
Lemma viol_at_snoc xs x i y v : (i <= length xs)%nat -> viol_at (xs ++ [x]) i y v <-> viol_at xs i y v.
Proof.
  intros L. unfold viol_at, obj_at. destruct i as [|i]; [reflexivity|].
  rewrite firstn_app. replace (S i - length xs)%nat with 0%nat by lia. cbn [firstn]. rewrite app_nil_r. reflexivity.
Qed.
Lemma worth_snoc orig xs x v : all_worth orig xs -> viol_at xs (length xs) x v -> worth abs_tol rel_tol orig v -> all_worth orig (xs ++ [x]).
Proof.
  intros A V W i y H. assert (i < length (xs ++ [x]))%nat by (apply nth_error_Some; congruence).
  rewrite app_length in H0. cbn in H0.
  destruct (Nat.eq_dec i (length xs)) as [->|N].
  - rewrite nth_error_app2, Nat.sub_diag in H by lia. cbn in H. injection H as <-. exists v. split; [|exact W].
    apply viol_at_snoc; [lia|exact V].
  - rewrite nth_error_app1 in H by lia. destruct (A i y H) as (w & Hw & Ww). exists w. split; [|exact Ww].
    apply viol_at_snoc; [lia|exact Hw].
Qed.

Inductive ending (rounds : nat) (orig : Q) (cs : list C) (e : ecp_end C) (xs : list (list Q)) : Prop :=
| End_infeasible : e_inf e = true -> xs <> [] -> e_m e = Some (cuts xs) -> lp (cuts xs) = LpInf -> e_lps e = length xs -> (length xs < rounds)%nat -> ending rounds orig cs e xs
| End_tolerance x ob : e_inf e = false -> xs <> [] -> e_m e = Some (cuts xs) -> lp (cuts xs) = LpSol x ob -> viol x ob = Ok (e_v e) ->
    ~ worth abs_tol rel_tol orig (e_v e) -> e_lps e = length xs -> (length xs < rounds)%nat -> ending rounds orig cs e xs
| End_last ys x : e_inf e = false -> xs = ys ++ [x] -> (oa x t = [] \/ length xs = rounds) ->
    e_m e = (match ys with [] => None | _ => Some (cuts ys) end) -> viol_at ys (length ys) x (e_v e) -> e_lps e = length ys -> ending rounds orig cs e xs
| End_none : e_inf e = false -> xs = [] -> e_m e = None -> e_v e = orig -> (rounds = 0%nat \/ ~ worth abs_tol rel_tol orig orig) ->
    e_lps e = 0%nat -> ending rounds orig cs e xs.

Lemma worth_b orig v : (Qltb abs_tol v && Qltb (rel_tol * orig) v)%bool = true <-> worth abs_tol rel_tol orig v.
Proof. rewrite andb_true_iff, !Qltb_lt. reflexivity. Qed.
Lemma loop_ok rounds orig cs0 : forall k xs m v lps e,
  (k + length xs = rounds)%nat -> (k = 0%nat -> xs = []) -> visit xs -> all_worth orig xs ->
  m = (match xs with [] => None | _ => Some (cuts xs) end) -> lps = length xs ->
  (xs = [] -> v = orig /\ viol x0 obj0 = Ok orig) ->
  (xs <> [] -> exists x ob, lp (cuts xs) = LpSol x ob /\ viol x ob = Ok v) ->
  ecp_loop C lp x0 oa viol abs_tol rel_tol ov false k orig (cs0 ++ cuts xs) m v lps = Ok e ->
  exists zs, e_cs e = cs0 ++ cuts zs /\ visit zs /\ all_worth orig zs /\ (length zs <= rounds)%nat /\ ending rounds orig cs0 e zs.
Proof.
  induction k as [|k IH]; intros xs m v lps e K Z V A M L O1 O2 H.
  - cbn [ecp_loop] in H. specialize (Z eq_refl). subst xs m lps. cbn [length] in H. assert (e = mkEnd (cs0 ++ cuts []) None v false 0%nat) by congruence. subst e.
    exists []. split; [reflexivity|]. split; [exact V|]. split; [exact A|]. split; [cbn; lia|].
    destruct (O1 eq_refl). apply End_none; cbn; auto.
  - cbn [ecp_loop] in H. destruct (Qltb abs_tol v && Qltb (rel_tol * orig) v)%bool eqn:W.
    + pose proof (proj1 (worth_b orig v) W) as W'. fold t in H.
      set (x := local_point C lp x0 m) in H.
      assert (HX : (xs = [] -> x = x0) /\ (xs <> [] -> exists ob, lp (cuts xs) = LpSol x ob) /\ viol_at xs (length xs) x v).
      { destruct xs as [|y xs'].
        - destruct (O1 eq_refl) as [-> E]. subst m. cbn in x. split; [reflexivity|]. split; [congruence|]. exact E.
        - assert (N : y :: xs' <> []) by discriminate. destruct (O2 N) as (z & ob & E & F). subst m. subst x.
          unfold local_point. rewrite E. split; [discriminate|]. split; [eauto|]. unfold viol_at, obj_at. cbn [length].
          change (S (length xs')) with (length (y :: xs')). rewrite firstn_all, E. exact F. }
      destruct HX as (HX1 & HX2 & HX3). clearbody x.
      pose proof (visit_snoc xs x V HX1 HX2) as V'. pose proof (worth_snoc orig xs x v A HX3 W') as A'.
      replace ((cs0 ++ cuts xs) ++ oa x t) with (cs0 ++ cuts (xs ++ [x])) in H by (rewrite cuts_snoc, app_assoc; reflexivity).
      assert (LX : length (xs ++ [x]) = S (length xs)) by (rewrite app_length; cbn; lia).
      assert (NE : xs ++ [x] <> []) by (destruct xs; discriminate).
      match type of H with (if ?b then _ else _) = _ => destruct b eqn:B end.
      * apply andb_prop in B. destruct B as [B1 B2]. apply Nat.ltb_lt in B2.
        assert (IN : (do l <- match m with None => Ok [] | Some l => Ok l end; Ok l) = Ok (cuts xs)).
        { subst m. destruct xs; reflexivity. }
        destruct (match m with None => Ok [] | Some l => Ok l end) as [l| | | | | | |] eqn:ML; cbn [bind] in IN, H; try discriminate IN.
        assert (l = cuts xs) by congruence. subst l.
        replace (installCuts C (cuts xs) (cs0 ++ cuts (xs ++ [x])) (length (cs0 ++ cuts (xs ++ [x])) - length (cs0 ++ cuts xs)))
          with (cuts (xs ++ [x])) in H.
        2:{ rewrite cuts_snoc, app_assoc, install_ok. reflexivity. }
        destruct (lp (cuts (xs ++ [x]))) as [|z ob] eqn:LP.
        -- assert (e = mkEnd (cs0 ++ cuts (xs ++ [x])) (Some (cuts (xs ++ [x]))) v true (S lps)) by congruence. subst e.
           exists (xs ++ [x]). split; [reflexivity|]. split; [exact V'|]. split; [exact A'|]. split; [lia|].
           apply End_infeasible; cbn; auto; lia.
        -- apply bind_ok in H. destruct H as (v' & Hv & H).
           apply (IH (xs ++ [x]) (Some (cuts (xs ++ [x]))) v' (S lps) e); auto; try lia.
           ++ destruct (xs ++ [x]); [congruence|reflexivity].
           ++ congruence.
           ++ eauto.
      * assert (e = mkEnd (cs0 ++ cuts (xs ++ [x])) m v false lps) by congruence. subst e.
        exists (xs ++ [x]). split; [reflexivity|]. split; [exact V'|]. split; [exact A'|]. split; [lia|].
        apply (End_last _ _ _ _ _ xs x); cbn; auto.
        apply andb_false_iff in B. rewrite cuts_snoc, app_assoc, app_length in B. destruct B as [B|B].
        -- left. apply Nat.ltb_ge in B. destruct (oa x t); [reflexivity|]. cbn in B. lia.
        -- right. apply Nat.ltb_ge in B. lia.
    + assert (NW : ~ worth abs_tol rel_tol orig v) by (intros X; apply worth_b in X; congruence).
      assert (e = mkEnd (cs0 ++ cuts xs) m v false lps) by congruence. subst e.
      exists xs. split; [reflexivity|]. split; [exact V|]. split; [exact A|]. split; [lia|].
      destruct xs as [|y xs'].
      * destruct (O1 eq_refl) as [-> _]. apply End_none; cbn; auto.
      * destruct (O2 ltac:(discriminate)) as (z & ob & E & F). apply (End_tolerance _ _ _ _ _ z ob); cbn; auto; [discriminate|cbn in K; lia].
Qed.
End E.

(** The whole call. *)
Section G.
Context {C : Type} (lp : list C -> lpres) (x0 : list Q) (obj0 : Q) (oa : list Q -> option (list Q) -> list C)
        (viol : list Q -> Q -> outcome Q) (abs_tol rel_tol : Q) (ov : bool).
Let t := if ov then Some x0 else None.
Lemma generate_inv rounds beta rand depth cs st cs' st' k :
  ecp_generate C lp x0 obj0 oa viol abs_tol rel_tol ov false rounds beta rand depth cs st = Ok (cs', st', k) ->
  (cs' = cs /\ st' = st /\ k = 0%nat /\
     (skipped beta rand depth = true \/ exists orig, viol x0 obj0 = Ok orig /\ orig <= abs_tol)) \/
  (exists orig xs e, skipped beta rand depth = false /\ viol x0 obj0 = Ok orig /\ abs_tol < orig /\
     cs' = cs ++ cuts_at oa t xs /\ visited lp x0 oa t xs /\ all_worth lp x0 obj0 oa viol abs_tol rel_tol ov orig xs /\
     (length xs <= rounds)%nat /\ ending lp x0 obj0 oa viol abs_tol rel_tol ov rounds orig cs e xs /\
     m_viol st' = Some (e_v e) /\
     m_obj st' = (if e_inf e then Some PInf
                  else match e_m e with
                       | None => m_obj st
                       | Some l => match lp l with LpInf => Some PInf | LpSol _ ob => Some (Fin ob) end
                       end) /\
     k = (e_lps e + if e_inf e then 0 else match e_m e with None => 0 | Some _ => 1 end)%nat).
Proof.
  unfold ecp_generate. destruct (skipped beta rand depth) eqn:S; intros H.
  - left. assert (cs' = cs /\ st' = st /\ k = 0%nat) as (-> & -> & ->) by (repeat split; congruence). auto.
  - apply bind_ok in H. destruct H as (orig & V & H). destruct (Qle_bool orig abs_tol) eqn:E.
    + left. assert (cs' = cs /\ st' = st /\ k = 0%nat) as (-> & -> & ->) by (repeat split; congruence).
      apply Qleb_le in E. repeat split; auto. right. eauto.
    + apply Qleb_gt in E. apply bind_ok in H. destruct H as (e & HL & H). right.
      replace cs with (cs ++ cuts_at oa t []) in HL by apply app_nil_r.
      destruct (loop_ok lp x0 obj0 oa viol abs_tol rel_tol ov rounds orig cs rounds [] None orig 0%nat e) as (xs & A1 & A2 & A3 & A4 & A5); auto.
      * split; [cbn; discriminate|]. intros [|i]; discriminate.
      * intros [|i]; discriminate.
      * congruence.
      * exists orig, xs, e. cbv zeta in H.
        match type of H with Ok (?a, ?b, ?c) = _ => assert (a = cs' /\ b = st' /\ c = k) as (<- & <- & <-) by (repeat split; congruence) end.
        cbn [m_viol m_obj]. repeat split; auto; apply A2.
Qed.
Lemma lps_le rounds orig cs e xs : (length xs <= rounds)%nat -> ending lp x0 obj0 oa viol abs_tol rel_tol ov rounds orig cs e xs ->
  (e_lps e + (if e_inf e then 0 else match e_m e with None => 0 | Some _ => 1 end) <= rounds)%nat.
Proof.
  intros L [E1 E2 E3 E4 E5 E8|x ob E1 E2 E3 E4 E5 E6 E7 E8|ys x E1 E2 E3 E4 E5 E6|E1 E2 E3 E4 E5 E6].
  - rewrite E1, E5. lia.
  - rewrite E1, E3, E7. lia.
  - subst xs. rewrite app_length in L. cbn in L. rewrite E1, E4, E6. destruct ys; cbn [length] in *; lia.
  - rewrite E1, E3, E6. lia.
Qed.
Lemma cuts_valid sat feas : oa_valid sat feas oa -> forall xs c y, In c (cuts_at oa t xs) -> feas y -> sat c y.
Proof.
  intros V xs c y H F. unfold cuts_at in H. apply in_concat in H. destruct H as (l & Hl & Hc).
  apply in_map_iff in Hl. destruct Hl as (x & <- & _). eapply V; eauto.
Qed.
End G.

(** doEcpRounds: lp_ is set, so the clone is never made. *)
Section D.
Context {C : Type} (lp : list C -> lpres) (x0 : list Q) (obj0 : Q) (oa : list Q -> option (list Q) -> list C)
        (viol : list Q -> Q -> outcome Q) (abs_tol rel_tol : Q) (ov : bool).
Let t := if ov then Some x0 else None.
Lemma given_loop rounds orig cs :
  ecp_loop C lp x0 oa viol abs_tol rel_tol ov true rounds orig cs None orig 0 =
  match rounds with
  | O => Ok (mkEnd cs None orig false 0%nat)
  | S k => if (Qltb abs_tol orig && Qltb (rel_tol * orig) orig)%bool then
             match oa x0 t, k with _ :: _, S _ => AssertFail | new, _ => Ok (mkEnd (cs ++ new) None orig false 0%nat) end
           else Ok (mkEnd cs None orig false 0%nat)
  end.
Proof.
  destruct rounds as [|k]; [reflexivity|]. cbn [ecp_loop local_point]. fold t.
  destruct (Qltb abs_tol orig && Qltb (rel_tol * orig) orig)%bool; [|reflexivity].
  destruct (oa x0 t) as [|c l].
  - rewrite app_nil_r, Nat.sub_diag. cbn. reflexivity.
  - rewrite app_length. cbn [length]. replace (length cs + S (length l) - length cs)%nat with (S (length l)) by lia.
    destruct k; reflexivity.
Qed.
Lemma do_exact rounds beta rand depth st :
  doEcpRounds lp x0 obj0 oa viol abs_tol rel_tol ov rounds beta rand depth st =
  let last := match m_viol st, m_obj st with Some v, Some o => Ok (o, v) | _, _ => Uninit end in
  if skipped beta rand depth then last
  else do orig <- viol x0 obj0;
       if Qle_bool orig abs_tol then last
       else if (Nat.ltb 1 rounds && Qltb (rel_tol * orig) orig && match oa x0 t with [] => false | _ => true end)%bool
            then AssertFail
            else match m_obj st with Some o => Ok (o, orig) | None => Uninit end.
Proof.
  unfold doEcpRounds, ecp_generate. cbv zeta. destruct (skipped beta rand depth); [reflexivity|].
  destruct (viol x0 obj0) as [orig| | | | | | |]; cbn [bind]; try reflexivity.
  destruct (Qle_bool orig abs_tol) eqn:E; [reflexivity|]. apply Qleb_gt in E. apply Qltb_lt in E.
  rewrite given_loop. destruct rounds as [|[|k]]; [reflexivity| |].
  - rewrite E. cbn [andb Nat.ltb Nat.leb]. destruct (Qltb (rel_tol * orig) orig); [|reflexivity].
    destruct (oa x0 t); reflexivity.
  - rewrite E. cbn [andb Nat.ltb Nat.leb]. destruct (Qltb (rel_tol * orig) orig); [|reflexivity].
    destruct (oa x0 t); reflexivity.
Qed.
End D.

(** * OaNlpOptim *)
Lemma copy_ok ints : forall i lo up s,
  (i + length ints <= length (k_lo s))%nat -> (i + length ints <= length (k_up s))%nat ->
  (i + length ints <= length lo)%nat -> (i + length ints <= length up)%nat ->
  exists s', copy_int_bounds i ints lo up s = Ok s' /\ length (k_lo s') = length (k_lo s) /\ length (k_up s') = length (k_up s) /\
    (forall j, (i <= j < i + length ints)%nat -> nth_error ints (j - i) = Some true ->
       nth_error (k_lo s') j = nth_error lo j /\ nth_error (k_up s') j = nth_error up j) /\
    (forall j, (~ (i <= j < i + length ints)%nat \/ nth_error ints (j - i) = Some false) ->
       nth_error (k_lo s') j = nth_error (k_lo s) j /\ nth_error (k_up s') j = nth_error (k_up s) j).
Proof.
  induction ints as [|b ints IH]; intros i lo up s H1 H2 H3 H4.
  - exists s. cbn. repeat split; auto; cbn in *; lia.
  - cbn [copy_int_bounds length] in *. destruct b.
    + destruct (rd_lt i lo ltac:(lia)) as (l & -> & El). destruct (rd_lt i up ltac:(lia)) as (u & -> & Eu). cbn [bind].
      destruct (lset_get i l (k_lo s) ltac:(lia)) as (l' & E1 & L1 & G1). unfold setLower. rewrite E1. cbn [bind k_up k_lo].
      destruct (lset_get i u (k_up s) ltac:(lia)) as (u' & E2 & L2 & G2). unfold setUpper. cbn [k_up k_lo]. rewrite E2. cbn [bind].
      destruct (IH (S i) lo up (mkCols l' u') ltac:(cbn; lia) ltac:(cbn; lia) ltac:(lia) ltac:(lia)) as (s' & E & A & B & P & N).
      cbn [k_lo k_up] in *. exists s'. split; [exact E|]. split; [lia|]. split; [lia|]. split.
      * intros j Hj Tj. destruct (Nat.eq_dec j i) as [->|NE].
        -- destruct (N i ltac:(left; lia)) as [-> ->]. rewrite G1, G2, Nat.eqb_refl, El, Eu. auto.
        -- apply P; [lia|]. replace (j - i)%nat with (S (j - S i)) in Tj by lia. exact Tj.
      * intros j Hj. assert (NE : j <> i). { intros ->. destruct Hj as [Hj|Hj]; [lia|]. rewrite Nat.sub_diag in Hj. discriminate. }
        apply Nat.eqb_neq in NE. rewrite <- (G1 j) at 1 || idtac.
        destruct (N j) as [-> ->].
        -- destruct Hj as [Hj|Hj]; [left; lia|]. destruct (Nat.lt_ge_cases j (S i)); [left; lia|]. right.
           replace (j - i)%nat with (S (j - S i)) in Hj by lia. exact Hj.
        -- rewrite G1, G2, NE. auto.
    + destruct (IH (S i) lo up s ltac:(lia) ltac:(lia) ltac:(lia) ltac:(lia)) as (s' & E & A & B & P & N).
      exists s'. split; [exact E|]. split; [lia|]. split; [lia|]. split.
      * intros j Hj Tj. assert (j <> i) by (intros ->; rewrite Nat.sub_diag in Tj; discriminate).
        apply P; [lia|]. replace (j - i)%nat with (S (j - S i)) in Tj by lia. exact Tj.
      * intros j Hj. apply N. destruct Hj as [Hj|Hj]; [left; lia|]. destruct (Nat.lt_ge_cases j (S i)); [left; lia|]. right.
        replace (j - i)%nat with (S (j - S i)) in Hj by lia. exact Hj.
Qed.
Lemma list_eq {A} (a b : list A) : length a = length b -> (forall j, (j < length a)%nat -> nth_error a j = nth_error b j) -> a = b.
Proof.
  revert b. induction a as [|x a IH]; intros [|y b] L H; try discriminate; [reflexivity|].
  cbn in L. pose proof (H 0%nat ltac:(cbn; lia)) as E. cbn in E. injection E as ->. f_equal. apply IH; [lia|].
  intros j Hj. apply (H (S j)). cbn. lia.
Qed.
Lemma node_ok ints sl su s : sized ints sl su s -> exists s1, copy_int_bounds 0 ints sl su s = Ok s1 /\ node_bounds ints sl su s s1 /\
  (forall s2, node_bounds ints sl su s s2 -> s2 = s1) /\ copy_int_bounds 0 ints (k_lo s) (k_up s) s1 = Ok s.
Proof.
  intros (L1 & L2 & L3 & L4).
  destruct (copy_ok ints 0 sl su s) as (s1 & E & A & B & P & N); try lia.
  assert (NB : node_bounds ints sl su s s1).
  { split; [exact A|]. split; [exact B|]. intros j b H. assert (j < length ints)%nat by (apply nth_error_Some; congruence).
    destruct b; [apply P|apply N; right]; rewrite ?Nat.sub_0_r; auto; lia. }
  exists s1. split; [exact E|]. split; [exact NB|]. split.
  - intros s2 (A2 & B2 & H2). destruct NB as (A1 & B1 & H1). destruct s1 as [l1 u1], s2 as [l2 u2]. cbn [k_lo k_up] in *.
    f_equal; apply list_eq; try lia; intros j Hj; (destruct (nth_error ints j) as [b|] eqn:I;
      [|apply nth_error_None in I; lia]); destruct (H1 j b I), (H2 j b I); congruence.
  - destruct (copy_ok ints 0 (k_lo s) (k_up s) s1) as (s3 & E3 & A3 & B3 & P3 & N3); try lia.
    rewrite E3. f_equal. destruct s3 as [l3 u3], s as [l u]. cbn [k_lo k_up] in *.
    f_equal; apply list_eq; try lia; intros j Hj; (destruct (nth_error ints j) as [b|] eqn:I;
      [|apply nth_error_None in I; lia]); (destruct b;
      [apply P3; rewrite ?Nat.sub_0_r; auto; lia|
       destruct NB as (_ & _ & H1); destruct (H1 j false I), (N3 j ltac:(right; rewrite Nat.sub_0_r; exact I)); cbn [k_lo k_up] in *; congruence]).
Qed.
Lemma near_nearest v : Qabs (v - inject_Z (nearest v)) <= 1 # 10000000 <-> near_int v.
Proof.
  split; [intros H; exists (nearest v); exact H|]. intros (z & H).
  assert (nearest v = z) as ->; [|exact H]. unfold nearest.
  apply Qabs_Qle_condition in H. destruct H as [H1 H2].
  apply Z.le_antisymm.
  - apply Z.lt_succ_r. rewrite Zlt_Qlt. pose proof (Qfloor_le (v + (1 # 2))).
    unfold Z.succ. rewrite inject_Z_plus. change (inject_Z 1) with 1. lra.
  - apply Z.lt_succ_r. rewrite Zlt_Qlt. pose proof (Qlt_floor (v + (1 # 2))). unfold Z.succ. 
    rewrite inject_Z_plus in *. change (inject_Z 1) with 1 in *. lra.
Qed.
Lemma nlp_ok_lem {C} called ints sl su sx nlp (oa : list Q -> option (list Q) -> list C) ov aux s cs :
  sized ints sl su s -> (forall b, length (a_x (nlp b)) = length ints) ->
  (called = Ok false /\ nlp_generate called ints sl su sx nlp oa ov aux s cs = Ok (mkNe s cs None false None)) \/
  (called = Ok true /\ exists s1, node_bounds ints sl su s s1 /\
     let a := nlp s1 in
     nlp_generate called ints sl su sx nlp oa ov aux s cs =
       Ok (mkNe (match a_stat a with NAbandoned | NLimit => s1 | _ => s end)
                (cs ++ oa (a_x a) (if ov then Some sx else None))
                (match a_stat a with
                 | NOptimal => if (match integerFeasible 0 ints (a_x a) (1 # 10000000) with Ok f => f | _ => false end && aux)%bool
                               then Some (a_x a ++ [a_obj a], a_obj a) else None
                 | _ => None end)
                (match a_stat a with NAbandoned | NLimit => true | _ => false end) (Some s1))) \/
  (exists o, called = o /\ (forall b, o <> Ok b)).
Proof.
  intros SZ LX. destruct called as [b| | | | | | |] eqn:CA; try (right; right; eexists; split; [reflexivity|discriminate]).
  destruct b; [|left; auto]. right. left. split; [reflexivity|].
  destruct (node_ok ints sl su s SZ) as (s1 & E1 & NB & _ & E2). exists s1. split; [exact NB|]. cbv zeta.
  unfold nlp_generate. cbn [bind]. rewrite E1. cbn [bind]. destruct (a_stat (nlp s1)); try rewrite E2; cbn [bind]; try reflexivity.
  destruct (intfeas_spec (length ints) ints (1 # 10000000) (a_x (nlp s1)) 0 (LX s1) ltac:(lia)) as (r & -> & _). cbn [bind].
  reflexivity.
Qed.

(** * LinearCutsGenerator *)
Lemma lc_rounds_ok k found : (forall l, found l <> []) -> forall applied cs,
  exists new, lc_rounds k found applied cs = Ok (applied ++ new, cs ++ new) /\ all_found k found applied = applied ++ new.
Proof.
  intros F. induction k as [|k IH]; intros applied cs.
  - exists []. cbn. rewrite !app_nil_r. auto.
  - cbn [lc_rounds all_found]. destruct (found applied) as [|c l] eqn:E; [destruct (F applied E)|].
    destruct (IH (applied ++ c :: l) (cs ++ c :: l)) as (new & H1 & H2). exists ((c :: l) ++ new).
    rewrite H1, H2, <- !app_assoc. auto.
Qed.
Lemma keep_app a : forall b x y, length x = length a -> keep_tight (a ++ b) (x ++ y) = keep_tight a x ++ keep_tight b y.
Proof.
  induction a as [|c a IH]; intros b x y L; destruct x as [|v x]; try discriminate; [reflexivity|].
  cbn. rewrite IH by (cbn in L; lia). destruct (tight c v); reflexivity.
Qed.
(** In general: the positions of the slack rows are erased from the front of the collection. *)
Fixpoint keep_front (l : list lcut) (act : list Q) (cs : list lcut) : list lcut :=
  match l, act, cs with
  | c :: l, a :: act, d :: cs => if tight c a then d :: keep_front l act cs else keep_front l act cs
  | _, _, _ => cs
  end.
Lemma keep_front_snoc l : forall act cs c a d r, length act = length l -> length cs = length l ->
  keep_front (l ++ [c]) (act ++ [a]) (cs ++ d :: r) = keep_front l act (cs ++ (if tight c a then d :: r else r)).
Proof.
  induction l as [|c0 l IH]; intros act cs c a d r L1 L2; destruct act as [|a0 act]; try discriminate; destruct cs as [|d0 cs]; try discriminate.
  - cbn. destruct (tight c a); reflexivity.
  - cbn [app keep_front]. rewrite IH by (cbn in *; lia). reflexivity.
Qed.
Lemma clean_ok l : forall act suf sact cs, length act = length l -> (length l <= length cs)%nat ->
  lc_clean (length l) (act ++ sact) (l ++ suf) cs = Ok (keep_front l act cs).
Proof.
  induction l as [|c l IH] using rev_ind; intros act suf sact cs L1 L2.
  - destruct act; [|discriminate]. reflexivity.
  - rewrite app_length in *. cbn [length] in *. rewrite Nat.add_1_r in *.
    destruct act as [|a act _] using rev_ind; [discriminate|]. rewrite app_length in L1. cbn [length] in L1. rewrite Nat.add_1_r in L1.
    injection L1 as L1. cbn [lc_clean]. unfold rd.
    rewrite <- !app_assoc. cbn [app].
    rewrite (nth_error_app2 act) by lia. rewrite L1, Nat.sub_diag. rewrite (nth_error_app2 l) by lia. rewrite Nat.sub_diag. cbn [nth_error bind].
    assert (exists p d r, cs = p ++ d :: r /\ length p = length l) as (p & d & r & -> & Lp).
    { exists (firstn (length l) cs). destruct (skipn (length l) cs) as [|d r] eqn:E.
      - assert (length (skipn (length l) cs) = 0)%nat by (rewrite E; reflexivity). rewrite skipn_length in H. lia.
      - exists d, r. rewrite <- E, firstn_skipn. split; [reflexivity|]. rewrite firstn_length. lia. }
    rewrite keep_front_snoc by lia. fold (tight c a). destruct (tight c a); cbn [negb bind].
    + apply IH; [exact L1|]. rewrite app_length. lia.
    + unfold erase. rewrite app_length. cbn [length]. replace (Nat.ltb (length l) (length p + S (length r))) with true by (symmetry; apply Nat.ltb_lt; lia).
      cbn [bind]. replace (firstn (length l) (p ++ d :: r) ++ skipn (S (length l)) (p ++ d :: r)) with (p ++ r).
      2:{ rewrite <- Lp. rewrite firstn_app, firstn_all, Nat.sub_diag. cbn [firstn]. rewrite app_nil_r. f_equal.
          rewrite skipn_app. replace (S (length p) - length p)%nat with 1%nat by lia. rewrite skipn_all2 by lia. reflexivity. }
      apply IH; [exact L1|]. rewrite app_length. lia.
Qed.
Lemma keep_front_same l : forall act r, length act = length l -> keep_front l act (l ++ r) = keep_tight l act ++ r.
Proof.
  induction l as [|c l IH]; intros [|a act] r L; try discriminate; [reflexivity|].
  cbn. rewrite IH by (cbn in L; lia). destruct (tight c a); reflexivity.
Qed.
Lemma lc_exact found act cs : (forall l, found l <> []) -> (forall l, length (act l) = length l) ->
  let new := all_found 5 found [] in lc_generate found act cs = Ok (keep_front new (act new) (cs ++ new)).
Proof.
  intros F A new. unfold lc_generate. destruct (lc_rounds_ok 5 found F [] cs) as (n & E1 & E2). rewrite E1. cbn [app bind] in *.
  subst new. rewrite E2. rewrite <- (app_nil_r (act n)), <- (app_nil_r n) at 1.
  pose proof (clean_ok n (act n) [] [] (cs ++ n) (A n) ltac:(rewrite app_length; lia)) as X. rewrite !app_nil_r in *. exact X.
Qed.
