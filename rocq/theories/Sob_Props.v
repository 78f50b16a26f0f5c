(** Properties C287-C296: set-up objects. *)
From Verif Require Import Base.
From Verif Require Import Sob_Model Sob_Spec Sob_Proofs.
From Coq Require Import ZArith.
Open Scope Z_scope.

(** An instance: options are the list of the settings read, 9 is not a valid setting, 7 asks for the
    documentation; the file [true] is the default file. *)
Definition xr (o t : list Z) : list Z * bool := (o ++ filter (fun z => negb (Z.eqb z 9)) t, negb (existsb (Z.eqb 9) t)).
Definition xs (o : list Z) (k : Z) : list Z := o ++ [k].
Definition xw (o : list Z) : bool := existsb (Z.eqb 7) o.
Definition xfs (d : list Z) (f : bool) : option (list Z) := if f then Some d else None.
Notation xstep d := (sstep (list Z) (list Z) Z bool [] xr xs xw [] (xfs d) true).
Notation xcalls d := (calls (list Z) (list Z) Z bool [] xr xs xw [] (xfs d) true).
Notation xrun d := (srun (list Z) (list Z) Z bool [] xr xs xw [] (xfs d) true).

Theorem C287_refuted : forall O T K F (fresh : O) rdst setk wants (nothing : T) fs dflt (f : F),
  fs f = None -> ~ C287_full O T K F fresh rdst setk wants nothing fs dflt.
Proof.
  intros O T K F fresh rdst setk wants nothing fs dflt f E H. specialize (H src_new f). unfold file_read in H. rewrite E in H.
  destruct H as (s & H). destruct (file_cases O T K F fresh rdst setk wants nothing fs dflt src_new f) as (s' & H' & _).
  rewrite E in H'. congruence.
Qed.
Print Assumptions C287_refuted.
Example C287_refuted_ex : exists f, xfs [1] f = None. Proof. exists false. reflexivity. Qed.

(** What is read, and when an error is seen: a file that cannot be opened changes nothing and is not reported. *)
Theorem C287_partial : forall O T K F (fresh : O) rdst setk wants (nothing : T) fs dflt s (f : F), exists s',
  sstep O T K F fresh rdst setk wants nothing fs dflt s (SFile (Some f)) =
    Ok (s', match fs f with Some t => negb (snd (rdst (contents O fresh s) t)) | None => false end) /\
  q_o s' = Some (match fs f with Some t => fst (rdst (contents O fresh s) t) | None => contents O fresh s end).
Proof. exact file_cases. Qed.
Print Assumptions C287_partial.
Example C287_ex : exists s, xstep [1; 9; 2] src_new (SFile (Some true)) = Ok (s, true) /\ q_o s = Some [1; 2].
Proof. eexists. split; reflexivity. Qed.

Theorem C288_refuted : ~ C288_full (list Z) (list Z) Z bool [] xr xs xw [] (xfs [5]) true.
Proof.
  intros H. assert (E : exists s tr, xcalls [5] src_new [SFile (Some false)] = Ok (s, tr)) by (do 2 eexists; reflexivity).
  destruct E as (s & tr & E). destruct (H _ _ _ E) as (s' & b & S1 & C). vm_compute in E. injection E as <- <-.
  vm_compute in S1. injection S1 as <- <-. vm_compute in C. discriminate.
Qed.
Print Assumptions C288_refuted.
Theorem C288_partial : forall O T K F (fresh : O) rdst setk wants (nothing : T) fs (dflt : F) ops s tr,
  calls O T K F fresh rdst setk wants nothing fs dflt src_new ops = Ok (s, tr) ->
  (forall f, In (SFile (Some f)) ops -> fs f <> None) ->
  exists s' b, sstep O T K F fresh rdst setk wants nothing fs dflt s SDefault = Ok (s', b) /\
    contents O fresh s' = (if existsb (has_read O T K F fs) tr then contents O fresh s
                           else match fs dflt with Some t => fst (rdst (contents O fresh s) t) | None => contents O fresh s end).
Proof. exact default_when. Qed.
Print Assumptions C288_partial.
Example C288_ex : exists s tr, xcalls [5] src_new [SInit; SSet 3; SString [9; 4]] = Ok (s, tr) /\ existsb (has_read _ _ _ _ (xfs [5])) tr = false /\
  exists s' b, xstep [5] s SDefault = Ok (s', b) /\ q_o s' = Some [3; 4; 5].
Proof. do 2 eexists. split; [reflexivity|]. split; [reflexivity|]. do 2 eexists. split; reflexivity. Qed.
(** Once a file that is not there was named, the default file is never read. *)
Theorem C288_missing_partial : forall O T K F (fresh : O) rdst setk wants (nothing : T) fs (dflt : F) ops s tr f,
  calls O T K F fresh rdst setk wants nothing fs dflt src_new ops = Ok (s, tr) -> In (SFile (Some f)) ops -> fs f = None ->
  sstep O T K F fresh rdst setk wants nothing fs dflt s SDefault = Ok (s, false).
Proof. exact default_never. Qed.
Print Assumptions C288_missing_partial.
Example C288_missing_ex : exists s tr, xcalls [5] src_new [SFile (Some false); SSet 3] = Ok (s, tr) /\ q_o s = Some [3] /\
  In (SFile (Some false)) [@SFile (list Z) (list Z) Z bool (Some false); SSet 3] /\ xstep [5] s SDefault = Ok (s, false).
Proof. do 2 eexists. split; [reflexivity|]. split; [reflexivity|]. split; [left; reflexivity|reflexivity]. Qed.

Theorem C289_refuted : ~ C289_full (list Z) (list Z) Z bool [] xr xs xw [] (xfs [5]) true.
Proof.
  intros H. assert (E : exists s tr, xcalls [5] src_new [SString [1]; SSet 2] = Ok (s, tr) /\ quiet (list Z) (list Z) Z bool tr).
  { do 2 eexists. split; [reflexivity|]. repeat constructor. }
  destruct E as (s & tr & E & Q). destruct (H _ _ _ E Q eq_refl) as (_ & K).
  assert (S1 : exists s' b, xstep [5] s (SUseNlp [8]) = Ok (s', b)) by (do 2 eexists; reflexivity). destruct S1 as (s' & b & S1).
  specialize (K _ _ _ S1). vm_compute in S1. injection S1 as <- <-. vm_compute in K. discriminate.
Qed.
Print Assumptions C289_refuted.
(** Given directly, the problem is solved with all that was read and set, in order. *)
Theorem C289_partial : forall O T K F (fresh : O) rdst setk wants (nothing : T) fs (dflt : F) ops s tr,
  calls O T K F fresh rdst setk wants nothing fs dflt src_new ops = Ok (s, tr) -> quiet O T K F tr ->
  forallb (fun o => negb (replaces O T K F o)) ops = true ->
  contents O fresh s = all_in_order O T K F rdst setk nothing fs dflt ops fresh.
Proof. intros O T K F fresh rdst setk wants nothing fs dflt ops s tr E Q H. exact (in_order O T K F fresh rdst setk wants nothing fs dflt _ _ _ _ E Q H). Qed.
Print Assumptions C289_partial.
Example C289_ex : exists s tr, xcalls [5] src_new [SInit; SSet 1; SString [2; 3]; SUse] = Ok (s, tr) /\ q_o s = Some [1; 2; 3].
Proof. do 2 eexists. split; reflexivity. Qed.
Example C289_default_ex : exists s tr, xcalls [5] src_new [SDefault; SSet 1; SString [2; 3]; SUse] = Ok (s, tr) /\ q_o s = Some [5; 1; 2; 3] /\
  all_in_order (list Z) (list Z) Z bool xr xs [] (xfs [5]) true [SDefault; SSet 1; SString [2; 3]; SUse] [] = [5; 1; 2; 3].
Proof. do 2 eexists. repeat split; reflexivity. Qed.
(** Given as an interface, it is solved with the options of the interface only; made anew, the list is
    empty and it stays marked as read. *)
Theorem C289_replace_partial : forall O T K F (fresh : O) rdst setk wants (nothing : T) fs (dflt : F) s,
  (forall o, exists s', sstep O T K F fresh rdst setk wants nothing fs dflt s (SUseNlp o) = Ok (s', false) /\ contents O fresh s' = o /\ q_read s' = true) /\
  (exists s', sstep O T K F fresh rdst setk wants nothing fs dflt s SInit = Ok (s', false) /\ contents O fresh s' = fresh /\ q_read s' = q_read s).
Proof. intros O T K F fresh rdst setk wants nothing fs dflt s. split; [intros o; apply from_nlp|apply again_fresh]. Qed.
Print Assumptions C289_replace_partial.

Theorem C290_refuted : ~ C290_full (list Z) (list Z) Z bool [] xr xs xw [] (xfs [7]) true.
Proof.
  intros H. assert (E : exists s, xrun [7] src_new [SAmpl] = Ok s /\ q_doc s = 2%nat) by (eexists; split; reflexivity).
  destruct E as (s & E & D). pose proof (H _ _ E). lia.
Qed.
Print Assumptions C290_refuted.
Theorem C290_partial : forall O T K F (fresh : O) rdst setk wants (nothing : T) fs (dflt : F),
  (forall s o s' b, sstep O T K F fresh rdst setk wants nothing fs dflt s o = Ok (s', b) ->
    (q_doc s <= q_doc s' <= q_doc s + match o with SAmpl => 2 | _ => 1 end)%nat /\ (b = true -> q_doc s' = q_doc s) /\
    match o with SFile _ | SString _ => b = false -> wants (contents O fresh s') = true -> q_doc s' = S (q_doc s) | _ => True end) /\
  (forall t s' b, fs dflt = Some t -> sstep O T K F fresh rdst setk wants nothing fs dflt src_new SAmpl = Ok (s', b) -> b = false ->
    q_doc s' = if wants (fst (rdst fresh t)) then 2%nat else 0%nat).
Proof. intros O T K F fresh rdst setk wants nothing fs dflt. split; [exact (doc_step O T K F fresh rdst setk wants nothing fs dflt)|exact (doc_ampl O T K F fresh rdst setk wants nothing fs dflt)]. Qed.
Print Assumptions C290_partial.
Example C290_ex : exists s, xrun [7] src_new [SFile (Some true); SString [1]; SUse] = Ok s /\ q_doc s = 2%nat.
Proof. eexists. split; reflexivity. Qed.

(** * Copies *)
Theorem C291_refuted : ~ C291_full.
Proof.
  intros H. apply (H [WNew false; WInit 0 1 true; WObj 0 5; WCopy 0; WDel 1; WDel 0]). reflexivity.
Qed.
Print Assumptions C291_refuted.
Theorem C291_partial : forall ops, no_objects_copied w0 ops -> wrun w0 ops <> Dangling.
Proof. intros ops H. exact (run_safe ops w0 invL_0 invO_0 H). Qed.
Print Assumptions C291_partial.
Definition ops1 : list wop :=
  [WNew true; WInit 0 1 true; WCut 0 (-1) 3; WHeu 0 4; WBr 0 6; WCopy 0; WCopyNlp 0 2; WObj 1 7; WFrom 1 3 false; WCopyPre 2 8 5 false; WDel 0; WDel 2; WDel 1; WDel 3].
Example C291_ex : no_objects_copied w0 ops1 /\ exists w, wrun w0 ops1 = Ok w /\ w_su w = [None; None; None; None].
Proof.
  split; [|eexists; split; vm_compute; reflexivity].
  unfold ops1. repeat (split; [intros i u C A; first [discriminate | injection C as <-; vm_compute in A; injection A as <-; reflexivity]
    | let w := fresh "w" in let E := fresh "E" in intros w E; vm_compute in E; injection E as <-]). exact Logic.I.
Qed.
(** A set-up with objects and its copy cannot both be deleted. *)
Theorem C291_objects_partial : forall ops w i u op w1, wrun w0 ops = Ok w -> at_ w i u -> u_ob u <> [] -> copied op = Some i -> wstep w op = Ok w1 ->
  forall w2, (wstep w1 (WDel i) = Ok w2 -> wstep w2 (WDel (length (w_su w))) = Dangling) /\
             (wstep w1 (WDel (length (w_su w))) = Ok w2 -> wstep w2 (WDel i) = Dangling).
Proof.
  intros ops w i u op w1 R H No C E w2. destruct (copied_shares _ _ _ _ _ _ R H C E) as (A & Ne & u' & A' & Eo).
  destruct (u_ob u) as [|p l] eqn:O; [destruct (No eq_refl)|].
  assert (P1 : In p (owned u)) by (apply owned_parts; rewrite O; cbn; tauto).
  assert (P2 : In p (owned u')) by (apply owned_parts; rewrite Eo; cbn; tauto).
  split; intros D; [exact (shared_dangling w1 i (length (w_su w)) u u' p w2 (not_eq_sym Ne) A A' P1 P2 D)|exact (shared_dangling w1 (length (w_su w)) i u' u p w2 Ne A' A P2 P1 D)].
Qed.
Print Assumptions C291_objects_partial.
Example C291_objects_ex : (do w <- wrun w0 [WNew false; WInit 0 1 false; WObj 0 5]; do w1 <- wstep w (WCopyPre 0 2 1 true); do w2 <- wstep w1 (WDel 1); Ok (length (w_h w2))) = Ok 7%nat.
Proof. vm_compute. reflexivity. Qed.

Theorem C292_refuted : ~ C292_full.
Proof.
  intros H. assert (E : exists w u w', wrun w0 [WNew false; WInit 0 1 true; WHeu 0 4] = Ok w /\ at_ w 0 u /\ wstep w (WCopy 0) = Ok w').
  { do 3 eexists. split; [vm_compute; reflexivity|]. split; vm_compute; reflexivity. }
  destruct E as (w & u & w' & E & A & S1). destruct (H _ _ _ _ _ E A S1) as (_ & u' & A' & _ & Hh).
  vm_compute in E. injection E as <-. vm_compute in A. injection A as <-. vm_compute in S1. injection S1 as <-.
  vm_compute in A'. injection A' as <-. vm_compute in Hh. discriminate.
Qed.
Print Assumptions C292_refuted.
(** All but the heuristics. *)
Theorem C292_partial : forall ops w i u w', wrun w0 ops = Ok w -> at_ w i u -> wstep w (WCopy i) = Ok w' ->
  at_ w' i u /\ exists u', at_ w' (length (w_su w)) u' /\ same_parts w' u u' /\ u_heu u' = [] /\ solver_list w' u' = solver_list w u.
Proof.
  intros ops w i u w' R H E. destruct (copy_same _ _ _ _ _ R H E) as (A & u' & A' & P & Hh & _ & S1). split; [exact A|]. exists u'. auto.
Qed.
Print Assumptions C292_partial.
Example C292_ex : (do w <- wrun w0 [WNew false; WInit 0 1 true; WCut 0 2 3; WBr 0 6; WPar 0 [4]; WOpt 0 [8]]; do w' <- wstep w (WCopy 0); do u <- su_at 1 w';
  Ok (object_o (w_h w') (u_nls u), map (fun g => (fst g, object (w_h w') (snd g))) (u_cg u), u_par u, list_of w' (u_opt u))) = Ok (Some 1%nat, [(2, Some 3%nat)], [4], Some [8]).
Proof. vm_compute. reflexivity. Qed.

Theorem C293_refuted : ~ C293_full.
Proof.
  intros H. assert (E : exists w u w' u', wrun w0 [WNew false; WInit 0 1 true] = Ok w /\ at_ w 0 u /\ wstep w (WCopy 0) = Ok w' /\ at_ w' 1 u' /\ length (w_su w) = 1%nat).
  { do 4 eexists. split; [vm_compute; reflexivity|]. split; [vm_compute; reflexivity|]. split; [vm_compute; reflexivity|]. split; vm_compute; reflexivity. }
  destruct E as (w & u & w' & u' & E & A & S1 & A' & Ln). rewrite <- Ln in A'. pose proof (proj2 (H _ _ _ _ _ _ E A S1 A')) as K.
  rewrite Ln in A'. vm_compute in E. injection E as <-. vm_compute in A. injection A as <-. vm_compute in S1. injection S1 as <-.
  vm_compute in A'. injection A' as <-. specialize (K eq_refl). discriminate.
Qed.
Print Assumptions C293_refuted.
(** A copy never runs its search on its own NLP solver, unless there is no solver at all; a copy onto another
    NLP does exactly when the original does. *)
Theorem C293_partial : forall ops w i u, wrun w0 ops = Ok w -> at_ w i u ->
  (forall w' u', wstep w (WCopy i) = Ok w' -> at_ w' (length (w_su w)) u' -> (u_cts u' = u_nls u' <-> u_nls u = None)) /\
  (forall v w' u', wstep w (WCopyNlp i v) = Ok w' -> at_ w' (length (w_su w)) u' -> (u_cts u' = u_nls u' <-> u_cts u = u_nls u)).
Proof.
  intros ops w i u R H. split.
  - intros w' u' E A. destruct (copy_same _ _ _ _ _ R H E) as (_ & u2 & A2 & _ & _ & K & _). rewrite (at_fun _ _ _ _ A A2). exact K.
  - intros v w' u' E A. exact (copy_nlp_same _ _ _ _ _ _ _ R H E A).
Qed.
Print Assumptions C293_partial.
Example C293_ex : (do w <- wrun w0 [WNew false; WInit 0 1 true; WCopy 0; WCopyNlp 0 5]; do a <- su_at 0 w; do b <- su_at 1 w; do c <- su_at 2 w;
  Ok (peqb (u_cts a) (u_nls a), peqb (u_cts b) (u_nls b), peqb (u_cts c) (u_nls c))) = Ok (true, false, true).
Proof. vm_compute. reflexivity. Qed.

Theorem C294_refuted : ~ C294_full.
Proof.
  intros H. assert (E : exists w u, wrun w0 [WNew false; WInit 0 1 false] = Ok w /\ at_ w 0 u /\ u_nls u <> None /\ wstep w (WCopyNlp 0 2) = NullDeref).
  { do 2 eexists. split; [vm_compute; reflexivity|]. split; [vm_compute; reflexivity|]. split; [discriminate|vm_compute; reflexivity]. }
  destruct E as (w & u & E & A & N & K). destruct (H _ _ _ _ E A) as (_ & Q). destruct (Q N 2%nat) as (w' & S1). congruence.
Qed.
Print Assumptions C294_refuted.
Theorem C294_partial : forall ops w i u, no_objects_copied w0 ops -> wrun w0 ops = Ok w -> at_ w i u ->
  (u_mh u <> None /\ u_cts u = None /\ wstep w (WCopy i) = NullDeref \/
   (u_mh u = None \/ u_cts u <> None) /\ exists w', wstep w (WCopy i) = Ok w') /\
  (u_nls u <> None -> forall v,
   u_mh u <> None /\ u_cts u <> u_nls u /\ wstep w (WCopyNlp i v) = NullDeref \/
   (u_mh u = None \/ u_cts u = u_nls u) /\ exists w', wstep w (WCopyNlp i v) = Ok w').
Proof.
  intros ops w i u NC R H. pose proof (run_invL _ _ _ invL_0 R) as I. pose proof (run_invO _ _ _ invL_0 invO_0 NC R) as J. split.
  - exact (copy_cases w i u I J H).
  - intros Hn v. exact (copy_nlp_cases w i u v I J H Hn).
Qed.
Print Assumptions C294_partial.
Example C294_ex : wrun w0 [WNew true; WCopy 0] = NullDeref /\ (do w <- wrun w0 [WNew false; WCopy 0; WInit 1 4 false; WCopy 1]; Ok (length (w_su w))) = Ok 3%nat.
Proof. split; vm_compute; reflexivity. Qed.

Theorem C295_refuted : ~ C295_full.
Proof.
  intros H. assert (E : exists w u w', wrun w0 [WNew false; WInit 0 1 true; WCopy 0] = Ok w /\ at_ w 1 u /\ wstep w (WOpt 1 [3]) = Ok w' /\ solver_list w u = Some [] /\ solver_list w' u = Some []).
  { do 3 eexists. split; [vm_compute; reflexivity|]. split; [vm_compute; reflexivity|]. split; [vm_compute; reflexivity|]. split; vm_compute; reflexivity. }
  destruct E as (w & u & w' & E & A & S1 & S2 & S3). pose proof (H _ _ _ _ _ _ E A S1) as K. rewrite S2, S3 in K.
  assert (Some [3] = Some (@nil Z)) by (symmetry; apply K; discriminate). discriminate.
Qed.
Print Assumptions C295_refuted.
(** It reaches the solver exactly in set-ups that are not copies, or that were given a problem after they were copied. *)
Theorem C295_partial : forall ops w i u l w', wrun w0 ops = Ok w -> at_ w i u -> wstep w (WOpt i l) = Ok w' -> solver_list w u <> None ->
  list_of w' (u_opt u) = Some l /\ solver_list w' u = if linked ops i then Some l else solver_list w u.
Proof. exact opt_reach. Qed.
Print Assumptions C295_partial.
Example C295_ex : map (linked [WNew false; WInit 0 1 true; WCopy 0; WCopy 0; WFrom 2 3 false; WCopyPre 2 1 1 true]) [0; 1; 2; 3]%nat = [true; false; true; false] /\
  (do w <- wrun w0 [WNew false; WInit 0 1 true; WCopy 0; WCopy 0; WFrom 2 3 false; WOpt 2 [4]]; do u <- su_at 2 w; Ok (solver_list w u)) = Ok (Some [4]).
Proof. split; vm_compute; reflexivity. Qed.

Theorem C296 : C296_full.
Proof. exact opt_alone. Qed.
Print Assumptions C296.
Example C296_ex : (do w <- wrun w0 [WNew false; WInit 0 1 true; WOpt 0 [1]; WCopy 0; WOpt 0 [2]; WOpt 1 [3]]; do a <- su_at 0 w; do b <- su_at 1 w;
  Ok (list_of w (u_opt a), solver_list w a, list_of w (u_opt b), solver_list w b)) = Ok (Some [2], Some [2], Some [3], Some [1]).
Proof. vm_compute. reflexivity. Qed.
