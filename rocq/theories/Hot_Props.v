(** Strong branching on QPs with hot starts: properties. *)
From Coq Require Import Lqa.
From Verif Require Import Base Arr Hot_Model Hot_Spec Hot_Proofs Hot_Proofs2 Hot_Proofs3 Hot_Proofs4.
From Verif Require Itf_Model.
#[local] Open Scope Q_scope.

(** ** A routine for the examples: the solution is the vector of lower bounds *)
Definition low (e : ext) : Q := match e with Fin q => q | _ => 0 end.
Definition Bq (fail piv : call -> Z) (k : call) : answer :=
  let w := k_w k in let g := k_com k in
  mkAns (mkW (Some 0%Z) (map (fun i => Some (low (nth i (k_bl k) MInf))) (seq 0 (length (w_x w)))) (Some (low (nth 0 (k_bl k) MInf)))
             (w_g w) (w_r w) (w_w w) (w_e w) (w_ls w) (w_alp w) (w_lp w) (Some 0%Z) (w_ws w) (w_lws w) (Some (Z.abs (piv k))))
        (mkCom (c_bqpdc g) (c_epsc g) (c_vstepc g) (c_repc g) (c_nup g + 1) (c_nfreq g) (c_alphac g) (c_sparsec g) (c_factorc g)
               (c_mxm1c g) (c_minorc g) (c_kk g) 0 (c_ll g) (c_lll g) (c_mxws g) (c_mxlws g) (c_scalec g) (c_phl g)) (fail k).
Lemma Bq_honest fail piv : honest (Bq fail piv).
Proof.
  intros k. unfold honest_answer, Bq. cbn. split; [|split; [|repeat split; try discriminate; try lia]].
  - unfold same_sizes. cbn. rewrite map_length, seq_length. repeat split.
  - apply Forall_forall. intros c H. apply in_map_iff in H. destruct H as (i & <- & _). discriminate.
  - exists (Z.abs (piv k)). split; [reflexivity|lia].
Qed.
Definition ok_always : call -> Z := fun _ => 0%Z.
Definition one : call -> Z := fun _ => 1%Z.
Definition no_oth : tqp -> box -> bool -> Itf_Model.rstatus * list Q * Q * list Q :=
  fun t _ _ => (Itf_Model.solvedOptimal, repeat 1 (t_n t), 0, []).
Lemma no_oth_ok : oth_ok no_oth.
Proof. intros t b re. cbn. apply repeat_length. Qed.
(** min x, one variable, no constraint; the QP built at x. *)
Definition qp1 (x du : list Q) : tqp := mkT (length x) 0 x (low (Fin (nth 0 x 0))) [] (repeat 1 (length x)) [] [] [].
Lemma qp1_ok x du n : length x = n -> qp_ok n 0 (qp1 x du).
Proof. intros <-. repeat split. cbn. lia. Qed.
(** The defaults of the options, and restarts every five pivots. *)
Definition o0 : opts := mkO 4 None 100 6 0.
Definition o5 : opts := mkO 4 None 100 6 5.
Lemma around1 fail piv o n : 0 < o_fill o -> around (Bq fail piv) no_oth qp1 [] [] o n 0.
Proof.
  intros F. split; [apply Bq_honest|]. split; [apply no_oth_ok|]. split; [intros; apply qp1_ok; assumption|]. repeat split. exact F.
Qed.
Definition g0 : com := mkCom [] [] 0 [] 0 0 0 [] [] 0 0 0 0 0 0 0 0 (0, 0)%Z 0.
(** The node: 1/2 in [0,1]. *)
Definition z0 : state := mkSt [Fin 0] [Fin 1] [1 # 2] [] (1 # 2) Itf_Model.solvedOptimal None None None None g0 0 0.
Definition up1 : op := SetBounds [Fin 1] [Fin 1].
Definition down1 : op := SetBounds [Fin 0] [Fin 0].
Lemma z0_starts : starts 1 z0.
Proof. repeat split. Qed.
Definition ran {A} (o : outcome A) (d : A) : A := match o with Ok x => x | _ => d end.
Lemma ran_ok {A} (o : outcome A) d : (match o with Ok _ => True | _ => False end) -> o = Ok (ran o d).
Proof. destruct o; cbn; tauto. Qed.

Ltac spread A := destruct A as (Hb & Ho & Hq & Hg1 & Hg2 & Hf).
Lemma start_zinv dv filter fuel n m z : starts n z -> zinv dv filter fuel n m false z.
Proof. intros (A & B & C & D & _). repeat split; assumption. Qed.

(** ** C246: the QPs that are solved *)
Theorem C246 bqpd oth qp_of filter gl gu o n m fuel ps z zs es :
  around bqpd oth qp_of gl gu o n m -> starts n z -> legal n false ps ->
  run bqpd oth qp_of filter o gl gu fuel ps z = Ok (zs, es) ->
  posed_all qp_of (mkB (z_xl z) (z_xu z) gl gu) (Some (z_x z, z_du z)) None ps es.
Proof.
  intros A S L E. spread A.
  pose proof (run_safe bqpd Hb True oth qp_of filter o gl gu fuel n m Ho Hq (conj Hg1 Hg2) Hf (fun _ _ _ => or_introl Logic.I)
    ps false z (Some (z_x z, z_du z)) L (start_zinv _ _ _ _ _ _ S)) as R.
  refine (proj1 (proj2 (safe_ok _ _ _ _ (R _ _) E))).
  - intros x du X _. injection X as <- <-. auto.
  - discriminate.
Qed.
Print Assumptions C246.
(** Down and up children of 1/2 in [0,1]. *)
Example C246_case :
  match run (Bq ok_always one) no_oth qp1 true o0 [] [] 30 [Mark; down1; Trial; up1; Trial; SetBounds [Fin 0] [Fin 1]; Unmark] z0 with
  | Ok (zs, [EMark t l1 _; EOther; ETrial l2 z2; EOther; ETrial l3 z3; EOther; EOther]) =>
      t_x0 t = [1 # 2] /\ map (fun ka => map low (k_bu (fst ka))) l2 = [[0 - (1 # 2)]] /\ map (fun ka => map low (k_bl (fst ka))) l3 = [[1 - (1 # 2)]] /\
      map (fun q => Qeq_bool q 0) (z_x z2) = [true] /\ map (fun q => Qeq_bool q 1) (z_x z3) = [true] /\ Qeq_bool (z_obj z3) 1 = true
  | _ => False
  end.
Proof. vm_compute. repeat split. Qed.

(** ** C247: no invalid access *)
Theorem C247 bqpd oth qp_of filter gl gu o n m fuel ps z :
  around bqpd oth qp_of gl gu o n m -> starts n z -> legal n false ps ->
  match run bqpd oth qp_of filter o gl gu fuel ps z with
  | Ok _ | Thrown | Diverges => True
  | _ => False
  end.
Proof.
  intros A S L. spread A.
  pose proof (run_safe bqpd Hb True oth qp_of filter o gl gu fuel n m Ho Hq (conj Hg1 Hg2) Hf (fun _ _ _ => or_introl Logic.I)
    ps false z None L (start_zinv _ _ _ _ _ _ S)) as R.
  assert (X : safe True (run bqpd oth qp_of filter o gl gu fuel ps z) (fun _ => True)).
  { eapply safe_imp; [|apply R]; [trivial| |discriminate]. intros ? ? X. discriminate X. }
  unfold safe in X. destruct (run bqpd oth qp_of filter o gl gu fuel ps z); tauto.
Qed.
Print Assumptions C247.
(** The QP of the mark cannot be solved; the trials are then solved from scratch. *)
Definition fails_mark : call -> Z := fun k => if Qeq_bool (low (nth 0 (k_bl k) MInf)) (low (nth 0 (k_bu k) MInf)) then 0%Z else 8%Z.
Example C247_case :
  match run (Bq fails_mark one) no_oth qp1 true o0 [] [] 30 [Mark; up1; Trial; down1; Trial; Unmark; NodeSolve [0] [] 0 Itf_Model.solvedOptimal g0; Mark; Unmark] z0 with
  | Ok (_, es) => length (concat (map calls_of es)) = 5%nat
  | _ => False
  end.
Proof. vm_compute. reflexivity. Qed.
(** A trial without a mark is a null dereference, which the rules exclude. *)
Example C247_rules : run (Bq ok_always one) no_oth qp1 true o0 [] [] 30 [Trial] z0 = NullDeref.
Proof. reflexivity. Qed.

(** ** C248: trials start from the marked state *)
(** With the default options a trial that comes after lost factors does not. *)
Definition loses_up : call -> Z := fun k => if Qltb 0 (low (nth 0 (k_bl k) MInf)) then 8%Z else 0%Z.
Theorem C248_refuted : exists bqpd, honest bqpd /\ ~ from_mark_full bqpd no_oth qp1 o0 [] [] 30.
Proof.
  exists (Bq loses_up one). split; [apply Bq_honest|]. intros F.
  pose (m1 := ran (run (Bq loses_up one) no_oth qp1 true o0 [] [] 30 [Mark] z0) (z0, [])).
  pose (m2 := ran (run (Bq loses_up one) no_oth qp1 true o0 [] [] 30 [up1; Trial; down1] (fst m1)) (z0, [])).
  pose (m3 := ran (trial (Bq loses_up one) no_oth [] [] 30 (fst m2)) (z0, [])).
  assert (X : exists k a, calls_of (hd EOther (snd m1)) = [(k, a)] /\ a_ifail a = 0%Z /\
     exists kr ar, snd m3 = [(kr, ar)] /\ w_x (k_w kr) <> w_x (a_w a)).
  { vm_compute. eexists _, _. split; [reflexivity|]. split; [reflexivity|]. eexists _, _. split; [reflexivity|]. discriminate. }
  destruct X as (k & a & E1 & A0 & kr & ar & E3 & N).
  apply N. destruct (F 1%nat z0 (fst m1) (hd EOther (snd m1)) [up1; Trial; down1] (fst m2) (snd m2) k a kr ar [] [] (fst m3)) as (W & _);
    [apply z0_starts|repeat constructor|repeat constructor|vm_compute; reflexivity|exact E1|exact A0|vm_compute; reflexivity| |rewrite W; reflexivity].
  rewrite <- E3. vm_compute. reflexivity.
Qed.
Print Assumptions C248_refuted.
(** Nor does one made before the number of pivots asked for, although nothing failed. *)
Theorem C248_refuted_freq : exists bqpd, honest bqpd /\ (forall k, a_ifail (bqpd k) = 0%Z) /\ ~ from_mark_full bqpd no_oth qp1 o5 [] [] 30.
Proof.
  exists (Bq ok_always one). split; [apply Bq_honest|]. split; [reflexivity|]. intros F.
  pose (m1 := ran (run (Bq ok_always one) no_oth qp1 true o5 [] [] 30 [Mark] z0) (z0, [])).
  pose (m2 := ran (run (Bq ok_always one) no_oth qp1 true o5 [] [] 30 [up1; Trial; down1] (fst m1)) (z0, [])).
  pose (m3 := ran (trial (Bq ok_always one) no_oth [] [] 30 (fst m2)) (z0, [])).
  assert (X : exists k a, calls_of (hd EOther (snd m1)) = [(k, a)] /\ a_ifail a = 0%Z /\
     exists kr ar, snd m3 = [(kr, ar)] /\ w_x (k_w kr) <> w_x (a_w a)).
  { vm_compute. eexists _, _. split; [reflexivity|]. split; [reflexivity|]. eexists _, _. split; [reflexivity|]. discriminate. }
  destruct X as (k & a & E1 & A0 & kr & ar & E3 & N).
  apply N. destruct (F 1%nat z0 (fst m1) (hd EOther (snd m1)) [up1; Trial; down1] (fst m2) (snd m2) k a kr ar [] [] (fst m3)) as (W & _);
    [apply z0_starts|repeat constructor|repeat constructor|vm_compute; reflexivity|exact E1|exact A0|vm_compute; reflexivity| |rewrite W; reflexivity].
  rewrite <- E3. vm_compute. reflexivity.
Qed.
Print Assumptions C248_refuted_freq.
(** Missing from the full statement: no restart frequency, the QP of the mark took a pivot, and no trial since then ran out of space
    or lost its factors. *)
Theorem C248_partial bqpd oth qp_of gl gu o n m fuel z z' em ps zs es k1 a1 q1 k a q zt l :
  around bqpd oth qp_of gl gu o n m -> o_reinit o = 0%Z -> starts n z ->
  run bqpd oth qp_of true o gl gu fuel [Mark] z = Ok (z', [em]) ->
  calls_of em = (k1, a1) :: q1 -> calls_of em = q ++ [(k, a)] -> a_ifail a = 0%Z -> (0 < pivots a1)%Z ->
  Forall (trying n) ps -> Forall (same_options o) ps ->
  run bqpd oth qp_of true o gl gu fuel ps z' = Ok (zs, es) -> Forall smooth (answers es) ->
  trial bqpd oth gl gu fuel zs = Ok (zt, l) ->
  exists kr r, l = (kr, bqpd kr) :: r /\ continues a kr /\ k_m0de kr = o_m0de o /\ (smooth (bqpd kr) -> r = []).
Proof.
  intros A R0 S EM C1 CL Z0 P1 TR SO E SM ET. spread A.
  cbn [run step] in EM. apply bind_inv in EM. destruct EM as ((z1, e1) & EM & X). injection X as <- <-.
  apply bind_inv in EM. destruct EM as ((z2, l1) & EM & X). injection X as <- <-. cbn [calls_of] in *.
  destruct (mark_hotz bqpd Hb qp_of o gl gu fuel n m Hq (conj Hg1 Hg2) Hf z z2 l1 q k a k1 a1 q1 (start_zinv _ _ _ _ _ _ S) EM CL C1 Z0)
    as (M & R & c & HZ & HW & HN & HP).
  destruct (run_trying bqpd Hb oth qp_of o gl gu fuel n m Ho (conj Hg1 Hg2) a ps z2 c HZ M R TR SO zs es E SM) as (c' & HZ' & M' & R' & LT & _); [lia|lia|].
  destruct (trial_start bqpd Hb oth gl gu fuel n m Ho (conj Hg1 Hg2) a zs zt l c' HZ' ET) as (kr & r & t & T & LQ & next & (w & g & KE & CS) & SMO).
  destruct CS as [(_ & W & G & _) | (GE & _)]; [|lia].
  exists kr, r. split; [exact LQ|]. split; [split; rewrite KE; cbn; assumption|]. split; [rewrite KE; exact M'|].
  intros SA. apply (SMO SA).
Qed.
Print Assumptions C248_partial.
(** So what was tried before, and in which order, makes no difference. *)
Theorem C248_order bqpd oth qp_of gl gu o n m fuel z z' em k1 a1 q1 k a q ps ps' zs es zs' es' zt l zt' l' :
  around bqpd oth qp_of gl gu o n m -> o_reinit o = 0%Z -> starts n z ->
  run bqpd oth qp_of true o gl gu fuel [Mark] z = Ok (z', [em]) ->
  calls_of em = (k1, a1) :: q1 -> calls_of em = q ++ [(k, a)] -> a_ifail a = 0%Z -> (0 < pivots a1)%Z ->
  Forall (trying n) ps -> Forall (same_options o) ps -> Forall (trying n) ps' -> Forall (same_options o) ps' ->
  run bqpd oth qp_of true o gl gu fuel ps z' = Ok (zs, es) -> Forall smooth (answers es) ->
  run bqpd oth qp_of true o gl gu fuel ps' z' = Ok (zs', es') -> Forall smooth (answers es') ->
  z_xl zs = z_xl zs' -> z_xu zs = z_xu zs' ->
  trial bqpd oth gl gu fuel zs = Ok (zt, l) -> trial bqpd oth gl gu fuel zs' = Ok (zt', l') ->
  Forall smooth (map snd l) -> l = l'.
Proof.
  intros A R0 S EM C1 CL Z0 P1 TR SO TR' SO' E SM E' SM' XL XU ET ET' SL. spread A.
  cbn [run step] in EM. apply bind_inv in EM. destruct EM as ((z1, e1) & EM & X). injection X as <- <-.
  apply bind_inv in EM. destruct EM as ((z2, l1) & EM & X). injection X as <- <-. cbn [calls_of] in *.
  destruct (mark_hotz bqpd Hb qp_of o gl gu fuel n m Hq (conj Hg1 Hg2) Hf z z2 l1 q k a k1 a1 q1 (start_zinv _ _ _ _ _ _ S) EM CL C1 Z0)
    as (M & R & c & HZ & HW & HN & HP).
  destruct (run_trying bqpd Hb oth qp_of o gl gu fuel n m Ho (conj Hg1 Hg2) a ps z2 c HZ M R TR SO zs es E SM) as (c1 & HZ1 & M1 & R1 & LT1 & T1 & K1 & L1); [lia|lia|].
  destruct (run_trying bqpd Hb oth qp_of o gl gu fuel n m Ho (conj Hg1 Hg2) a ps' z2 c HZ M R TR' SO' zs' es' E' SM') as (c2 & HZ2 & M2 & R2 & LT2 & T2 & K2 & L2); [lia|lia|].
  destruct (trial_start bqpd Hb oth gl gu fuel n m Ho (conj Hg1 Hg2) a zs zt l c1 HZ1 ET) as (kr & r & t & T & LQ & next & (w & g & KE & CS) & SMO).
  destruct (trial_start bqpd Hb oth gl gu fuel n m Ho (conj Hg1 Hg2) a zs' zt' l' c2 HZ2 ET') as (kr' & r' & t' & T' & LQ' & next' & (w' & g' & KE' & CS') & SMO').
  destruct CS as [(_ & W & G & _) | (GE & _)]; [|lia]. destruct CS' as [(_ & W' & G' & _) | (GE & _)]; [|lia].
  assert (KK : kr = kr').
  { rewrite KE, KE'. unfold the_box. assert (t = t') by congruence. subst t'. congruence. }
  rewrite <- KK in *. assert (SA : smooth (bqpd kr)) by (rewrite LQ in SL; inversion SL; assumption).
  destruct (SMO SA) as (-> & _). destruct (SMO' SA) as (-> & _). congruence.
Qed.
Print Assumptions C248_order.
Example C248_case :
  let B := Bq ok_always one in
  match run B no_oth qp1 true o0 [] [] 30 [Mark] z0 with
  | Ok (z', [em]) =>
      match run B no_oth qp1 true o0 [] [] 30 [up1; Trial; Foreign g0 6 0; down1] z' with
      | Ok (zs, es) =>
          match trial B no_oth [] [] 30 zs, calls_of em with
          | Ok (zt, [(kr, ar)]), [(k, a)] => a_ifail a = 0%Z /\ pivots a = 1%Z /\ k_w kr = a_w a /\ k_com kr = a_com a /\ k_m0de kr = 6%Z
          | _, _ => False
          end
      | _ => False
      end
  | _ => False
  end.
Proof. vm_compute. repeat split. Qed.

(** ** C249: how far from the marked state a trial may start *)
Theorem C249 bqpd oth qp_of gl gu o n m fuel z z' em ps zs es k1 a1 q1 k a q :
  around bqpd oth qp_of gl gu o n m -> (0 <= o_reinit o)%Z -> starts n z ->
  run bqpd oth qp_of true o gl gu fuel [Mark] z = Ok (z', [em]) ->
  calls_of em = (k1, a1) :: q1 -> calls_of em = q ++ [(k, a)] -> a_ifail a = 0%Z -> (0 <= pivots a1)%Z ->
  Forall (trying n) ps -> Forall (same_options o) ps ->
  run bqpd oth qp_of true o gl gu fuel ps z' = Ok (zs, es) -> Forall smooth (answers es) ->
  near (o_reinit o) a [] es.
Proof.
  intros A R0 S EM C1 CL Z0 P1 TR SO E SM. spread A.
  cbn [run step] in EM. apply bind_inv in EM. destruct EM as ((z1, e1) & EM & X). injection X as <- <-.
  apply bind_inv in EM. destruct EM as ((z2, l1) & EM & X). injection X as <- <-. cbn [calls_of] in *.
  destruct (mark_hotz bqpd Hb qp_of o gl gu fuel n m Hq (conj Hg1 Hg2) Hf z z2 l1 q k a k1 a1 q1 (start_zinv _ _ _ _ _ _ S) EM CL C1 Z0)
    as (M & R & c & HZ & HW & HN & HP).
  eapply (run_near bqpd Hb oth qp_of o gl gu fuel n m Ho (conj Hg1 Hg2) a ps z2 c [] (h_piv c) 0%Z HZ M R TR SO zs es E SM R0);
    [rewrite HW; constructor|lia|lia].
Qed.
Print Assumptions C249.
(** With a restart every five pivots and two pivots a trial: the marked state, 2 and 4 pivots from it, and the marked state again. *)
Definition two : call -> Z := fun _ => 2%Z.
Example C249_case :
  let B := Bq ok_always two in
  match run B no_oth qp1 true o5 [] [] 30 [Mark; up1; Trial; Trial; Trial; Trial] z0 with
  | Ok (_, [EMark _ [(_, a)] _; EOther; ETrial [(k1, a1)] _; ETrial [(k2, a2)] _; ETrial [(k3, a3)] _; ETrial [(k4, _)] _]) =>
      k_w k1 = a_w a /\ k_w k2 = a_w a1 /\ k_w k2 <> a_w a /\ k_w k3 = a_w a /\ k_w k4 = a_w a3 /\ k_w k4 <> a_w a
  | _ => False
  end.
Proof. vm_compute. repeat split; discriminate. Qed.

(** ** C250: warm starts are coherent *)
(** Another solver of QPs was at work between the mark and the trial. *)
Theorem C250_refuted : exists bqpd, honest bqpd /\ (forall k, a_ifail (bqpd k) = 0%Z) /\ ~ coherent_full bqpd no_oth qp1 o5 [] [] 30.
Proof.
  exists (Bq ok_always one). split; [apply Bq_honest|]. split; [reflexivity|]. intros F.
  pose (m1 := ran (run (Bq ok_always one) no_oth qp1 true o5 [] [] 30 [Mark; up1; Foreign g0 6 5; Trial] z0) (z0, [])).
  assert (L : legal 1 false [Mark; up1; Foreign g0 6 5; Trial]) by (repeat split).
  pose proof (F 1%nat z0 _ (fst m1) (snd m1) z0_starts L ltac:(vm_compute; reflexivity)) as C.
  assert (X : exists k1 a1 k2 a2, concat (map calls_of (snd m1)) = [(k1, a1); (k2, a2)] /\ k_m0de k2 = 6%Z /\ c_nup (k_com k2) <> c_nup (a_com a1)).
  { vm_compute. eexists _, _, _, _. split; [reflexivity|]. split; [reflexivity|]. discriminate. }
  destruct X as (k1 & a1 & k2 & a2 & E & M & N). rewrite E in C. cbn [coherent app] in C. destruct C as (_ & C & _).
  destruct C as (k' & a' & [I | []] & (_ & G)); [congruence|]. injection I as <- <-. apply N. rewrite G. reflexivity.
Qed.
Print Assumptions C250_refuted.
(** Missing from the full statement: no other QP is solved between a mark and its unmark. *)
Theorem C250_partial bqpd oth qp_of gl gu o n m fuel ps z zs es :
  around bqpd oth qp_of gl gu o n m -> starts n z -> legal n false ps -> Forall alone ps ->
  run bqpd oth qp_of true o gl gu fuel ps z = Ok (zs, es) ->
  coherent [] (concat (map calls_of es)).
Proof.
  intros A S L AL E. spread A.
  destruct (run_hist bqpd Hb oth qp_of o gl gu fuel n m Ho Hq (conj Hg1 Hg2) Hf True False ps false [] false z zs es L (fun _ => AL)) as (C & _);
    [tauto|apply start_zinv, S|exact E|]. apply C. exact Logic.I.
Qed.
Print Assumptions C250_partial.
(** Restarts after failures included: the warm trial fails, is tried again from the hot start and then from scratch. *)
Example C250_case :
  match run (Bq loses_up one) no_oth qp1 true o5 [] [] 30 [Mark; down1; Trial; up1; Trial; down1; Trial] z0 with
  | Ok (_, [EMark _ [(_, a)] _; EOther; ETrial [(k1, a1)] _; EOther; ETrial [(k2, a2); (k3, a3); (k4, a4)] _; EOther; ETrial [(k5, a5)] _]) =>
      k_m0de k1 = 6%Z /\ continues a k1 /\ k_m0de k2 = 6%Z /\ continues a1 k2 /\ k_m0de k3 = 6%Z /\ continues a k3 /\
      k_m0de k4 = 0%Z /\ a_ifail a4 = 8%Z /\ k_m0de k5 = 0%Z
  | _ => False
  end.
Proof. vm_compute. repeat split. Qed.

(** ** C251: enlarging the workspace ends *)
Definition full_always : call -> Z := fun _ => 7%Z.
(** A QP without a constraint and with a zero gradient: the workspace is not made larger. *)
Definition qp2 (x du : list Q) : tqp := mkT (length x) 0 x 0 [] (repeat 0 (length x)) [] [] [].
Lemma qp2_ok x du n : length x = n -> qp_ok n 0 (qp2 x du).
Proof. intros <-. repeat split. cbn. lia. Qed.
Definition stuck (s : st) : Prop :=
  h_t (s_c s) = qp2 [1 # 2] [] /\ h_kk (s_c s) = 0%Z /\ h_have (s_c s) = false /\ length (w_x (h_w (s_c s))) = 1%nat /\
  c_kkk (s_com s) = 0%Z /\ h_ifail (s_c s) = 7%Z.
Lemma stuck_grows s : stuck s -> exists s', grow (Bq full_always one) s = Ok s' /\ stuck s'.
Proof.
  intros (T & K & V & X & KK & I). unfold grow. rewrite V. cbn [bind]. rewrite T.
  assert (F : to_int (s_fill s * 2 * inject_Z (Z.of_nat (amax (qp2 [1 # 2] [])))) = Ok 0%Z).
  { unfold to_int. assert (Z0 : Qfloor (s_fill s * 2 * inject_Z (Z.of_nat (amax (qp2 [1 # 2] [])))) = 0%Z).
    { rewrite (Qfloor_comp _ 0); [reflexivity|]. change (inject_Z (Z.of_nat (amax (qp2 [1 # 2] [])))) with 0. ring. }
    rewrite Z0. reflexivity. }
  rewrite F. cbn [bind]. rewrite K, KK. change (new_size _) with (Ok 5%nat). cbn [bind].
  assert (W : copyN (w_ws (h_w (s_c s))) (Z.to_nat 0) (repeat (Some 42) 5) = Ok (repeat (Some 42) 5)) by (destruct (w_ws (h_w (s_c s))); reflexivity).
  rewrite W. cbn [bind]. unfold cold. cbn [s_c upd_ws h_w h_t w_x]. rewrite T. change (t_n (qp2 [1 # 2] [])) with 1%nat.
  rewrite copyN_ok by (rewrite ?repeat_length; auto). cbn [bind]. eexists. split; [reflexivity|].
  unfold stuck. cbn. repeat split; assumption.
Qed.
Lemma stuck_diverges fuel : forall s, stuck s -> growing (Bq full_always one) fuel s = Diverges.
Proof.
  induction fuel as [|f IH]; intros s P; cbn [growing]; rewrite (proj2 (proj2 (proj2 (proj2 (proj2 P))))); [reflexivity|].
  cbn [Z.eqb Pos.eqb]. destruct (stuck_grows s P) as (s' & -> & P'). cbn [bind]. apply IH, P'.
Qed.
Theorem C251_refuted : exists bqpd, around bqpd no_oth qp2 [] [] o0 1 0 /\ ~ enlarging_full bqpd no_oth qp2 o0 [] [].
Proof.
  exists (Bq full_always one). split.
  { split; [apply Bq_honest|]. split; [apply no_oth_ok|]. split; [intros; apply qp2_ok; assumption|]. repeat split. }
  intros (fuel & F). apply (F 1%nat z0 [Mark]); [apply z0_starts|repeat split|].
  cbn [run step]. unfold mark, OptimizeTNLP. cbn [y_cache].
  assert (O : exists c, new_cache (o_kmax o0) (o_mlp o0) (o_fill o0) (qp2 (z_x z0) (z_du z0)) (the_box [] [] z0) = Ok c /\
     optimize (Bq full_always one) 6 0 fuel (mkS c 4 (init_com g0) []) = Diverges).
  { eexists. split; [vm_compute; reflexivity|]. unfold optimize.
    match goal with |- bind (start 0 (set_common ?s)) _ = _ => pose (s1 := ran (start 0 (set_common s)) s); assert (E1 : start 0 (set_common s) = Ok s1) by (vm_compute; reflexivity) end.
    rewrite E1. cbn [bind].
    pose (s2 := ran (first_call (Bq full_always one) s1) s1). assert (E2 : first_call (Bq full_always one) s1 = Ok s2) by (vm_compute; reflexivity).
    rewrite E2. cbn [bind].
    assert (E3 : retry_hot (Bq full_always one) 0 s2 = Ok s2) by (vm_compute; reflexivity). rewrite E3. cbn [bind].
    assert (E4 : retry_cold (Bq full_always one) 6 s2 = Ok s2) by (vm_compute; reflexivity). rewrite E4. cbn [bind].
    rewrite stuck_diverges; [reflexivity|]. vm_compute. repeat split. }
  destruct O as (c & EC & EO). cbn [z_m0de z_reinit z_com y_kmax y_mlp y_fill].
  change (the_box [] [] _) with (the_box [] [] z0). rewrite EC. cbn [bind]. unfold callOptimizer. cbn [y_fill].
  change (o_fill o0) with 4. change (o_m0de o0) with 6%Z. change (o_reinit o0) with 0%Z. change (z_com z0) with g0. rewrite EO. reflexivity.
Qed.
Print Assumptions C251_refuted.
(** Missing from the full statement: there is a non-zero in the gradient or in the constraints; then so many doublings are enough. *)
Theorem C251_partial bqpd oth qp_of filter gl gu o n m fuel ps z :
  around bqpd oth qp_of gl gu o n m -> (forall x du, length x = n -> (1 <= amax (qp_of x du))%nat) ->
  (1 <= fuel)%nat -> inject_Z 2147483648 <= o_fill o * inject_Z (2 ^ Z.of_nat fuel) ->
  starts n z -> legal n false ps ->
  run bqpd oth qp_of filter o gl gu fuel ps z <> Diverges.
Proof.
  intros A AM F1 F2 S L. spread A.
  assert (EN : forall x du, length x = n -> ends False fuel (qp_of x du) (o_fill o)).
  { intros x du X. right. split; [exact F1|]. split; [auto|]. change (inject_Z int_max + 1) with (inject_Z 2147483648). exact F2. }
  pose proof (run_safe bqpd Hb False oth qp_of filter o gl gu fuel n m Ho Hq (conj Hg1 Hg2) Hf EN
    ps false z None L (start_zinv _ _ _ _ _ _ S)) as R.
  intros D. rewrite D in R. apply R; [|discriminate]. intros ? ? X. discriminate X.
Qed.
Print Assumptions C251_partial.
(** Out of space twice: the factor goes from 4 to 16. *)
Definition full_small : call -> Z := fun k => if Nat.ltb (length (w_ws (k_w k))) 20 then 7%Z else 0%Z.
Example C251_case :
  inject_Z 2147483648 <= o_fill o0 * inject_Z (2 ^ Z.of_nat 29) /\ (1 <= amax (qp1 [1 # 2] []))%nat /\
  match run (Bq full_small one) no_oth qp1 true o0 [] [] 29 [Mark; up1; Trial] z0 with
  | Ok (zs, es) => map (fun ka => length (w_ws (k_w (fst ka)))) (concat (map calls_of es)) = [16; 13; 21; 21]%nat
  | _ => False
  end.
Proof. split; [vm_compute; discriminate|]. split; [cbn; lia|]. vm_compute. reflexivity. Qed.

(** ** C252: the node after strong branching *)
(** The solution of the node is gone: the point is the one of the last trial. *)
Theorem C252_refuted : exists bqpd, honest bqpd /\ ~ node_kept_full bqpd no_oth qp1 true o0 [] [] 30.
Proof.
  exists (Bq ok_always one). split; [apply Bq_honest|]. intros F.
  pose (m1 := ran (run (Bq ok_always one) no_oth qp1 true o0 [] [] 30 (Mark :: [up1; Trial] ++ [SetBounds (z_xl z0) (z_xu z0); Unmark]) z0) (z0, [])).
  destruct (F 1%nat z0 [up1; Trial] (fst m1) (snd m1) z0_starts) as (_ & _ & _ & X & _); [repeat constructor|repeat constructor|vm_compute; reflexivity|].
  vm_compute in X. discriminate X.
Qed.
Print Assumptions C252_refuted.
(** Missing from the full statement: the point, the multipliers and the objective value. *)
Theorem C252_partial bqpd oth qp_of filter gl gu o n m fuel ps z zs es :
  around bqpd oth qp_of gl gu o n m -> starts n z -> Forall (trying n) ps ->
  run bqpd oth qp_of filter o gl gu fuel (Mark :: ps ++ [SetBounds (z_xl z) (z_xu z); Unmark]) z = Ok (zs, es) ->
  z_xl zs = z_xl z /\ z_xu zs = z_xu z /\ z_status zs = z_status z.
Proof.
  intros A S TR E. spread A.
  eapply (node_after bqpd Hb oth qp_of filter o gl gu fuel n m Ho Hq (conj Hg1 Hg2) Hf ps); [apply start_zinv, S|exact TR|exact E].
Qed.
Print Assumptions C252_partial.
(** An infeasible child was tried last; the node is still optimal. *)
Definition infeasible_up : call -> Z := fun k => if Qltb 0 (low (nth 0 (k_bl k) MInf)) then 3%Z else 0%Z.
Example C252_case :
  match run (Bq infeasible_up one) no_oth qp1 true o0 [] [] 30 (Mark :: [up1; Trial] ++ [SetBounds (z_xl z0) (z_xu z0); Unmark]) z0 with
  | Ok (zs, [_; _; ETrial _ zt; _; _]) => z_status zt = Itf_Model.provenInfeasible /\ z_status zs = Itf_Model.solvedOptimal /\
      z_xl zs = [Fin 0] /\ map (fun q => Qeq_bool q 1) (z_x zs) = [true]
  | _ => False
  end.
Proof. vm_compute. repeat split. Qed.

(** ** C253: a solver solves the problem it is given *)
(** After a further solve that was started from scratch because the one before it had lost its factors, a new problem is not looked at. *)
Definition q5 : tqp := mkT 1 0 [5] 5 [] [1] [] [] [].
Theorem C253_refuted : exists bqpd, honest bqpd /\ ~ obeyed_full bqpd 6 0 30.
Proof.
  exists (Bq loses_up one). split; [apply Bq_honest|]. intros F.
  pose (b1 := mkB [Fin 0] [Fin 1] [] []). pose (b2 := mkB [Fin 1] [Fin 1] [] []).
  pose (rs := [RAgain b2; RAgain b1; RSolve q5 b1]).
  assert (X : exists l1 l2 l3 k a, requests (Bq loses_up one) 6 0 30 (RSolve (qp1 [1 # 2] []) b1 :: rs) (mkBs 4 None 100 None) g0 = Ok [l1; l2; l3; [(k, a)]] /\
     t_x0 (k_t k) <> [5]).
  { vm_compute. eexists _, _, _, _, _. split; [reflexivity|]. discriminate. }
  destruct X as (l1 & l2 & l3 & k & a & E & N).
  assert (BX : forall b, b = b1 \/ b = b2 -> box_for 1 0 b) by (intros b [-> | ->]; repeat split).
  destruct (F 1%nat 0%nat (qp1 [1 # 2] []) b1 rs 4 None 100%nat g0 [l1; l2; l3; [(k, a)]] (qp1_ok _ _ _ eq_refl) (BX b1 (or_introl eq_refl))) as (_ & _ & _ & P & _).
  - repeat constructor; auto.
  - reflexivity.
  - exact E.
  - inversion P as [|? ? (T & _) _]. apply N. cbn in T. rewrite T. reflexivity.
Qed.
Print Assumptions C253_refuted.
(** Missing from the full statement: no solve ended with lost factors. *)
Theorem C253_partial bqpd md re fuel n m t b rs fill km mlp g ls :
  honest bqpd -> qp_ok n m t -> box_for n m b -> Forall (request_ok n m) rs -> 0 < fill ->
  requests bqpd md re fuel (RSolve t b :: rs) (mkBs fill km mlp None) g = Ok ls ->
  Forall (fun l => lost l = false) ls ->
  obeyed None (RSolve t b :: rs) ls.
Proof.
  intros Hb QP BX RO F E LO.
  eapply (requests_obeyed bqpd Hb md re fuel n m (RSolve t b :: rs) (mkBs fill km mlp None) g None ls).
  - split; [exact F|reflexivity].
  - constructor; [split; assumption|exact RO].
  - intros _. exact Logic.I.
  - exact E.
  - exact LO.
Qed.
Print Assumptions C253_partial.
Example C253_case :
  let b1 := mkB [Fin 0] [Fin 1] [] [] in let b2 := mkB [Fin 1] [Fin 1] [] [] in
  match requests (Bq ok_always one) 6 0 30 [RSolve (qp1 [1 # 2] []) b1; RAgain b2; RSolve q5 b1; RAgain b2] (mkBs 4 None 100 None) g0 with
  | Ok ls => Forall (fun l => lost l = false) ls /\ map (map (fun ka => t_x0 (k_t (fst ka)))) ls = [[[1 # 2]]; [[1 # 2]]; [[5]]; [[5]]]
  | _ => False
  end.
Proof. vm_compute. split; [repeat constructor|reflexivity]. Qed.

(** ** C254: what is reported *)
Theorem C254 bqpd oth qp_of gl gu o n m fuel ps z zs es :
  around bqpd oth qp_of gl gu o n m -> starts n z -> legal n false ps ->
  run bqpd oth qp_of true o gl gu fuel ps z = Ok (zs, es) ->
  reported_all None ps es.
Proof.
  intros A S L E. spread A.
  pose proof (run_safe bqpd Hb True oth qp_of true o gl gu fuel n m Ho Hq (conj Hg1 Hg2) Hf (fun _ _ _ => or_introl Logic.I)
    ps false z None L (start_zinv _ _ _ _ _ _ S)) as R.
  refine (proj2 (proj2 (proj2 (safe_ok _ _ _ _ (R _ _) E))) eq_refl); [intros ? ? X; discriminate X|discriminate].
Qed.
Print Assumptions C254.
Example C254_case :
  match run (Bq infeasible_up one) no_oth qp1 true o0 [] [] 30 [Mark; down1; Trial; up1; Trial] z0 with
  | Ok (zs, [_; _; ETrial _ z1; _; ETrial _ z2]) => z_status z1 = Itf_Model.solvedOptimal /\ Qeq_bool (z_obj z1) 0 = true /\ z_status z2 = Itf_Model.provenInfeasible
  | _ => False
  end.
Proof. vm_compute. repeat split. Qed.

(** ** C255: the Hessian and the workspaces *)
Theorem C255 bqpd oth qp_of filter gl gu o n m fuel ps z zs es :
  around bqpd oth qp_of gl gu o n m -> starts n z -> legal n false ps ->
  run bqpd oth qp_of filter o gl gu fuel ps z = Ok (zs, es) ->
  Forall (fun ka => in_place (fst ka)) (concat (map calls_of es)).
Proof.
  intros A S L E. spread A.
  pose proof (run_safe bqpd Hb True oth qp_of filter o gl gu fuel n m Ho Hq (conj Hg1 Hg2) Hf (fun _ _ _ => or_introl Logic.I)
    ps false z None L (start_zinv _ _ _ _ _ _ S)) as R.
  refine (proj1 (proj2 (proj2 (safe_ok _ _ _ _ (R _ _) E)))); [intros ? ? X; discriminate X|discriminate].
Qed.
Print Assumptions C255.
(** min x + 3/2 x^2: the Hessian is there after two enlargements and a restart. *)
Definition qp3 (x du : list Q) : tqp := mkT (length x) 0 x 0 [] (repeat 1 (length x)) [] [3] [1; 1; 1; 2]%Z.
Example C255_case :
  qp_ok 1 0 (qp3 [1 # 2] []) /\
  match run (Bq full_small one) no_oth qp3 true o0 [] [] 29 [Mark; up1; Trial] z0 with
  | Ok (zs, es) => map (fun ka => hd None (w_ws (k_w (fst ka)))) (concat (map calls_of es)) = [Some 3; Some 3; Some 3; Some 3] /\
                   map (fun ka => c_kk (k_com (fst ka))) (concat (map calls_of es)) = [1; 1; 1; 1]%Z
  | _ => False
  end.
Proof. split; [repeat split; cbn; lia|]. vm_compute. split; reflexivity. Qed.

(** ** C256: after lost factors *)
Theorem C256 bqpd oth qp_of gl gu o n m fuel ps z zs es :
  around bqpd oth qp_of gl gu o n m -> starts n z -> legal n false ps ->
  run bqpd oth qp_of true o gl gu fuel ps z = Ok (zs, es) ->
  recovers false es.
Proof.
  intros A S L E. spread A.
  destruct (run_hist bqpd Hb oth qp_of o gl gu fuel n m Ho Hq (conj Hg1 Hg2) Hf False False ps false [] false z zs es L) as (_ & _ & _ & C);
    [tauto|tauto|apply start_zinv, S|exact E|exact C].
Qed.
Print Assumptions C256.
Theorem C256_scratch bqpd oth qp_of gl gu o n m fuel ps z zs es :
  around bqpd oth qp_of gl gu o n m -> starts n z -> legal n false ps -> o_m0de o = 6%Z -> Forall (same_options o) ps ->
  run bqpd oth qp_of true o gl gu fuel ps z = Ok (zs, es) ->
  Forall tried_scratch (map calls_of es).
Proof.
  intros A S L M SO E. spread A.
  destruct (run_hist bqpd Hb oth qp_of o gl gu fuel n m Ho Hq (conj Hg1 Hg2) Hf False True ps false [] false z zs es L) as (_ & _ & C & _);
    [tauto|auto|apply start_zinv, S|exact E|apply C; [exact Logic.I|exact M]].
Qed.
Print Assumptions C256_scratch.
Example C256_case :
  match run (Bq loses_up one) no_oth qp1 true o0 [] [] 30 [Mark; up1; Trial; down1; Trial; Trial] z0 with
  | Ok (_, [EMark _ _ _; EOther; ETrial [(k2, a2); (k3, a3)] _; EOther; ETrial [(k4, a4)] _; ETrial [(k5, a5)] _]) =>
      k_m0de k2 = 6%Z /\ a_ifail a2 = 8%Z /\ k_m0de k3 = 0%Z /\ a_ifail a3 = 8%Z /\ k_m0de k4 = 0%Z /\ w_x (k_w k4) = [Some 0] /\ k_m0de k5 = 6%Z
  | _ => False
  end.
Proof. vm_compute. repeat split. Qed.

(** ** C257: options *)
(** They are shared: the last solver that was made decides. *)
Theorem C257_refuted : exists bqpd, honest bqpd /\ ~ own_options_full bqpd no_oth qp1 o0 [] [] 30.
Proof.
  exists (Bq ok_always one). split; [apply Bq_honest|]. intros F.
  pose (m1 := ran (run (Bq ok_always one) no_oth qp1 true o0 [] [] 30 [Mark; up1; Foreign g0 2 0; Trial] z0) (z0, [])).
  assert (L : legal 1 false [Mark; up1; Foreign g0 2 0; Trial]) by (repeat split).
  pose proof (F 1%nat z0 _ (fst m1) (snd m1) z0_starts L ltac:(vm_compute; reflexivity)) as C.
  assert (X : exists k1 a1 k2 a2, concat (map calls_of (snd m1)) = [(k1, a1); (k2, a2)] /\ k_m0de k2 = 2%Z).
  { vm_compute. eexists _, _, _, _. split; reflexivity. }
  destruct X as (k1 & a1 & k2 & a2 & E & M). rewrite E in C. inversion C as [|? ? _ C2]. inversion C2 as [|? ? C3 _]. cbn in C3.
  change (o_m0de o0) with 6%Z in C3. lia.
Qed.
Print Assumptions C257_refuted.
(** Missing from the full statement: no solver with other options is made between a mark and its unmark. *)
Theorem C257_partial bqpd oth qp_of gl gu o n m fuel ps z zs es :
  around bqpd oth qp_of gl gu o n m -> starts n z -> legal n false ps -> Forall (same_options o) ps ->
  run bqpd oth qp_of true o gl gu fuel ps z = Ok (zs, es) ->
  Forall (fun ka => k_m0de (fst ka) = 0%Z \/ k_m0de (fst ka) = o_m0de o) (concat (map calls_of es)).
Proof.
  intros A S L SO E. spread A.
  destruct (run_hist bqpd Hb oth qp_of o gl gu fuel n m Ho Hq (conj Hg1 Hg2) Hf False True ps false [] false z zs es L) as (_ & C & _);
    [tauto|auto|apply start_zinv, S|exact E|apply C; exact Logic.I].
Qed.
Print Assumptions C257_partial.
Example C257_case :
  match run (Bq ok_always one) no_oth qp1 true (mkO 4 None 100 2 0) [] [] 30 [Mark; up1; Foreign g0 2 0; Trial; down1; Trial] z0 with
  | Ok (_, es) => map (fun ka => k_m0de (fst ka)) (concat (map calls_of es)) = [0; 2; 2]%Z
  | _ => False
  end.
Proof. vm_compute. reflexivity. Qed.
