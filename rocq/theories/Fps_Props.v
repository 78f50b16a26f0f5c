(** C346: the feasibility problem depends on the last call only. *)
From Coq Require Import Lqa.
From Verif Require Import Base Arr Nlp FP_Model Dup_Model Fps_Model Fps_Spec.
#[local] Open Scope Q_scope.

Lemma pose_keeps : forall c f g, pose c f = Ok g ->
  f_scale g = f_scale f /\ (is_local c = true -> f_lam g = f_lam f /\ f_sig g = f_sig f) /\
  (match weight_of c with Some w => (1 - f_lam g) * f_sig g == w | None => is_local c = true end).
Proof.
  intros c f g H. destruct c; cbn [pose] in H; unfold fp_pump, fp_local in H;
    match type of H with (if ?b then _ else _) = _ => destruct b; [|discriminate H] end; injection H as <-; cbn;
    (split; [reflexivity|]); split; try (intro X; discriminate X); try (intros _; split; reflexivity); try reflexivity; ring.
Qed.
Lemma poses_app : forall h c f g, poses (h ++ [c]) f = Ok g -> exists k, poses h f = Ok k /\ pose c k = Ok g.
Proof.
  induction h as [|d h IH]; intros c f g H; cbn [app poses] in H.
  - destruct (pose c f) as [k| | | | | | |] eqn:E; try discriminate H. cbn in H. injection H as <-. exists f. split; [reflexivity | exact E].
  - cbn [poses]. destruct (pose d f) as [k| | | | | | |]; try discriminate H. cbn [bind] in *. exact (IH c k g H).
Qed.
Lemma poses_scale : forall h f g, poses h f = Ok g -> f_scale g = f_scale f.
Proof.
  induction h as [|d h IH]; intros f g H; cbn [poses] in H.
  - injection H as <-. reflexivity.
  - destruct (pose d f) as [k| | | | | | |] eqn:E; try discriminate H. cbn [bind] in H.
    rewrite (IH k g H). exact (proj1 (pose_keeps d f k E)).
Qed.
Lemma poses_weight : forall h f g w, poses h f = Ok g -> (1 - f_lam f) * f_sig f == w -> (1 - f_lam g) * f_sig g == last_weight w h.
Proof.
  induction h as [|d h IH]; intros f g w H W; cbn [poses] in H.
  - injection H as <-. exact W.
  - destruct (pose d f) as [k| | | | | | |] eqn:E; try discriminate H. cbn [bind] in H. cbn [last_weight].
    destruct (pose_keeps d f k E) as (_ & A & B). apply (IH k g _ H).
    destruct (weight_of d) as [v|]; [exact B|]. destruct (A B) as [-> ->]. exact W.
Qed.

Definition toy : nlp := mkNlp 1 0 0 [MInf] [PInf] [] [] [] [true] [0] [] (fun x => 0) (fun x => [0]) (fun x => []) [] (fun x => []) [(0%nat, 0%nat)] (fun _ s _ => [s]).
Theorem C346_refuted : ~ C346_full.
Proof.
  intro H.
  specialize (H toy 1 [] [Pump [0%nat] [0] 0 1 1] (Local [0%nat] [0] 1) _ _ eq_refl eq_refl). destruct H as [_ H].
  specialize (H [0] 1 [0] (fresh 1)). vm_compute in H. discriminate H.
Qed.
Print Assumptions C346_refuted.

Lemma grad_same : forall P i v a sg L sc u k b c1 r1 c2 r2 x,
  fp_eval_grad_f P (mkFp i v a sg L sc u k b c1 r1) x = fp_eval_grad_f P (mkFp i v a sg L sc u k b c2 r2) x.
Proof.
  intros. set (F := mkFp i v a sg L sc u k b c1 r1). set (G := mkFp i v a sg L sc u k b c2 r2).
  assert (A : forall is vs g, grad_l2 F x is vs g = grad_l2 G x is vs g).
  { induction is as [|j is IH]; intros [|w vs] g; cbn [grad_l2]; try reflexivity.
    repeat (match goal with |- bind ?e _ = bind ?d _ => change d with e; destruct e; cbn [bind]; try reflexivity end). apply IH. }
  assert (B : forall is vs g, grad_l1 F is vs g = grad_l1 G is vs g).
  { induction is as [|j is IH]; intros [|w vs] g; cbn [grad_l1]; try reflexivity.
    repeat (match goal with |- bind ?e _ = bind ?d _ => change d with e; destruct e; cbn [bind]; try reflexivity end). apply IH. }
  unfold fp_eval_grad_f. cbn [f_use f_norm f_inds f_vals f_lam f_sig F G]. destruct u; [|reflexivity].
  destruct (Nat.eqb L 2); [apply A | apply B].
Qed.

(** Everything but the Hessian depends on the last call only, and so does the Hessian unless that call is one of local
    branching.  Then the Hessian of the objective is weighted as in the last call before it that had a distance objective,
    by 0 if there was none, although the objective is that of the user. *)
Theorem C346_partial : forall P sc h1 h2 c F G,
  poses (h1 ++ [c]) (fp_new sc) = Ok F -> poses (h2 ++ [c]) (fp_new sc) = Ok G ->
  same_but_hess P F G /\ (is_local c = false -> same_hess P F G) /\
  (is_local c = true ->
   (forall x, fp_eval_f P F x = Ok (p_f P x)) /\
   exists w, w == last_weight 0 h1 /\
     exists l g, w = (1 - l) * g /\ forall x s lam a,
       fp_hess_vals P F x s lam a = bind (ablit 0 (p_hv P x (s * (1 - l) * g) (firstn (p_m P) lam)) a) Ok).
Proof.
  intros P sc h1 h2 c F G HF HG.
  destruct (poses_app _ _ _ _ HF) as (f & Hf & Ef). destruct (poses_app _ _ _ _ HG) as (g & Hg & Eg).
  assert (S1 : f_scale f = sc) by (rewrite (poses_scale _ _ _ Hf); reflexivity).
  assert (S2 : f_scale g = sc) by (rewrite (poses_scale _ _ _ Hg); reflexivity).
  pose proof (poses_weight h1 (fp_new sc) f 0 Hf ltac:(cbn; ring)) as W.
  clear HF HG Hf Hg.
  destruct c; cbn [pose is_local] in *; unfold fp_pump, fp_local in Ef, Eg;
    match type of Ef with (if ?b then _ else _) = _ => destruct b; [|discriminate Ef] end;
    injection Ef as <-; injection Eg as <-; rewrite S1, S2.
  - split; [repeat apply conj; try reflexivity; intros; apply grad_same|].
    split; [intros _ x t lam arr0; reflexivity | intro X; discriminate X].
  - split; [repeat apply conj; try reflexivity; intros;
      [apply grad_same | unfold fp_jac_vals; cbn [f_cut f_lb andb]; erewrite grad_same; reflexivity]|].
    split; [intros _ x t lam arr0; reflexivity | intro X; discriminate X].
  - split; [repeat apply conj; reflexivity|]. split; [intro X; discriminate X|]. intros _. split; [reflexivity|].
    exists ((1 - f_lam f) * f_sig f). split; [exact W|]. exists (f_lam f), (f_sig f). split; [reflexivity|].
    intros x t lam arr0. unfold fp_hess_vals. cbn [f_cut f_lb f_use andb f_lam f_sig bind].
    unfold fp_m. cbn [f_cut f_lb andb]. replace (p_m P + 1 - 1)%nat with (p_m P) by lia. reflexivity.
Qed.
Print Assumptions C346_partial.
Example C346_ex : exists F G,
  poses [Pump [0%nat] [0] (1 # 2) 1 2; PumpCut [0%nat] [1] 1 5; Local [0%nat] [0] 1] (fp_new 1) = Ok F /\
  poses [Pump [0%nat] [0] (1 # 2) 1 2; Local [0%nat] [0] 1] (fp_new 1) = Ok G /\
  same_but_hess toy F G /\ last_weight 0 [Pump [0%nat] [0] (1 # 2) 1 2] == 1 # 2.
Proof. eexists; eexists. split; [reflexivity|]. split; [reflexivity|]. split; [repeat apply conj; reflexivity | reflexivity]. Qed.
