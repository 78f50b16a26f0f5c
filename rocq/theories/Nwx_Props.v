(** * Theorems: the "new point" protocol (C315-C322) *)
From Coq Require Import List QArith Arith Bool Lia.
From Verif Require Import Nwx_Model Nwx_Spec Nwx_Proofs.
Import ListNotations.

Definition yes : fn -> option pt -> bool := fun _ _ => true.

(** ** C315: a solver that keeps to the protocol gets the values it asked for *)

(** With the objective moved to the constraints, the objective first and the
    constraints next (as an interior point method does at each trial point)
    evaluates the constraints at the previous point. *)
Theorem C315_refuted : ~ C315_full.
Proof.
  intros X.
  specialize (X yes (T2T Lin) [] None
    [Call G [0; 5] true; Call F [1; 7] true; Call G [1; 7] false]
    (fun _ _ => Logic.I)).
  assert (R : respects None [Call G [0; 5] true; Call F [1; 7] true; Call G [1; 7] false]).
  { simpl. auto. }
  specialize (X R). vm_compute in X.
  inversion X as [|? ? ? ? _ X2]; inversion X2 as [|? ? ? ? _ X3];
    inversion X3 as [|? ? ? ? X4 _]; subst.
  inversion X4 as [|? ? X5 _]. discriminate X5.
Qed.
Print Assumptions C315_refuted.

(** The same with a problem that strengthens a cut. *)
Theorem C315_strengthening_refuted :
  ~ (forall ok vi con start c0 cs,
      (forall k, In k cs -> shaped (Str User vi con) start (c_x k)) ->
      respects None cs ->
      right (Str User vi con) start cs (fst (run ok (Str User vi con) cs (St c0 start)))).
Proof.
  intros X.
  set (cs := [Call F [4] true; Call G [4] false]).
  assert (SH : forall k, In k cs -> shaped (Str User [1%nat] (Some 0%nat)) [0; 0; 0] (c_x k)).
  { intros k I. simpl. split; [|split].
    - constructor; [simpl; tauto|constructor].
    - intros j [<-|[]]; lia.
    - destruct I as [<-|[<-|[]]]; reflexivity. }
  assert (R : respects None cs) by (simpl; auto).
  specialize (X yes [1%nat] (Some 0%nat) [0; 0; 0] (Some [0; 0; 0]) cs SH R).
  vm_compute in X.
  inversion X as [|? ? ? ? _ X2]; inversion X2 as [|? ? ? ? X3 _]; subst.
  inversion X3 as [|? ? X4 _]. discriminate X4.
Qed.
Print Assumptions C315_strengthening_refuted.

(** Without these two wrappers it holds, whatever the problem was used for
    before, with or without quadratic cuts and the feasibility pump's objective
    and constraints. *)
Theorem C315_partial : forall ok s start c0 cs,
  plain s -> (forall k, In k cs -> solver_fn (c_fn k)) ->
  respects None cs ->
  right s start cs (fst (run ok s cs (St c0 start))).
Proof.
  intros ok s start c0 cs P SF R.
  apply run_right with (last := None); auto.
  - intros k _. apply plain_shaped. auto.
  - apply keeps_start.
  - unfold shown_first. apply Forall_forall. intros k I _. apply plain_shows; auto.
  - discriminate.
Qed.
Print Assumptions C315_partial.

(** And what a result depends on is indeed evaluated, on every stack, if the
    user's functions succeed. *)
Theorem C315_needs : forall s f x nw w,
  incl (needs s f) (map ev_fn (snd (tn_call (fun _ _ => true) s f x nw w))).
Proof. exact needs_met. Qed.
Print Assumptions C315_needs.

(** A feasibility pump's problem with a cutoff on top of quadratic cuts. *)
Example C315_example :
  run yes (FP (Quad User true 2) true)
    [Call F [1; 2] true; Call G [1; 2] false; Call F [3; 4] true; Call Jac [3; 4] false]
    (St (Some [9; 9]) [])
  = ([[Ev F (Some [1; 2]) true]; [Ev G (Some [1; 2]) false];
      [Ev F (Some [3; 4]) true]; [Ev Jac (Some [3; 4]) false]],
     St (Some [3; 4]) []).
Proof. vm_compute. reflexivity. Qed.

(** ** C316: a solver that always announces a new point is always right *)
Theorem C316_always_new : forall ok s start c0 cs,
  (forall k, In k cs -> shaped s start (c_x k)) ->
  always_new cs ->
  right s start cs (fst (run ok s cs (St c0 start))).
Proof.
  intros. apply always_new_right; auto. apply keeps_start.
Qed.
Print Assumptions C316_always_new.

Example C316_example :
  fst (run yes (Str User [2; 0; 4]%nat None)
    [Call G [1; 2; 3] true; Call F [5; 6; 7] true; Call Jac [5; 6; 8] true]
    (St None [10; 11; 12; 13]))
  = [[Ev F (Some [2; 11; 1; 13]) true]; []; [Ev GradF (Some [6; 11; 5; 13]) true]] /\
  fst (run yes (Str Lin [2; 0]%nat (Some 1%nat))
    [Call G [1; 2] true; Call Jac [5; 6] true] (St None [10; 11; 12; 13]))
  = [[Ev (Gi 0) (Some [2; 11; 1]) true]; [Ev (GradGi 0) (Some [6; 11; 5]) true]].
Proof. vm_compute. auto. Qed.

(** ** C317: exactly where the functions are evaluated, whatever the flags *)

(** The evaluations of each call are at the last point the user's problem was
    shown. *)
Theorem C317_exact : forall ok s start c0 cs,
  (forall k, In k cs -> shaped s start (c_x k)) ->
  Forall2 (fun c e => Forall (fun v => ev_at v = c) e)
          (seen s start c0 cs) (fst (run ok s cs (St c0 start))).
Proof.
  intros ok s start c0 cs SH.
  exact (run_at ok s start cs (St c0 start) SH (keeps_start s start)).
Qed.
Print Assumptions C317_exact.

(** So on every stack a solver that keeps to the protocol is right if it uses each
    new point first in a call that shows it. *)
Theorem C317_shown_first : forall ok s start c0 cs,
  (forall k, In k cs -> shaped s start (c_x k)) ->
  respects None cs -> shown_first s cs ->
  right s start cs (fst (run ok s cs (St c0 start))).
Proof.
  intros ok s start c0 cs SH R SF.
  apply run_right with (last := None); auto. apply keeps_start. discriminate.
Qed.
Print Assumptions C317_shown_first.

Example C317_example :
  shown_first (T2T Lin) [Call G [1; 7] true; Call F [1; 7] false; Call Jac [1; 7] false] /\
  fst (run yes (T2T Lin) [Call G [1; 7] true; Call F [1; 7] false; Call Jac [1; 7] false]
           (St (Some [0]) []))
  = [[Ev F (Some [1]) true; Ev G (Some [1]) false]; [];
     [Ev GradF (Some [1]) false; Ev Jac (Some [1]) false]].
Proof. split; [repeat constructor; simpl; congruence|vm_compute; reflexivity]. Qed.

(** ** C318: the rows computed one at a time, with quadratic cuts *)

(** Asking for a quadratic row at a new point shows the user nothing. *)
Theorem C318_refuted : ~ C318_full.
Proof.
  intros X.
  specialize (X yes User false 1%nat [] (Some [0])
    [Call (Gi 1) [5] true; Call (Gi 0) [5] false]).
  assert (R : respects None [Call (Gi 1) [5] true; Call (Gi 0) [5] false]) by (simpl; auto).
  specialize (X R). vm_compute in X.
  inversion X as [|? ? ? ? _ X2]; inversion X2 as [|? ? ? ? X3 _]; subst.
  inversion X3 as [|? ? X4 _]. discriminate X4.
Qed.
Print Assumptions C318_refuted.

Theorem C318_partial : forall ok lin morig start c0 cs,
  (forall k, In k cs -> match c_fn k with
                        | Gi i | GradGi i => (i < morig)%nat
                        | _ => True end) ->
  respects None cs ->
  right (Quad User lin morig) start cs
        (fst (run ok (Quad User lin morig) cs (St c0 start))).
Proof.
  intros ok lin morig start c0 cs B R.
  apply C317_shown_first; auto; [simpl; auto|].
  apply Forall_forall. intros k I _. specialize (B k I). simpl.
  destruct (c_fn k); simpl; auto; apply Nat.ltb_lt in B; rewrite B; reflexivity.
Qed.
Print Assumptions C318_partial.

Example C318_example :
  fst (run yes (Quad User false 2) [Call (Gi 1) [5] true; Call (GradGi 0) [5] false]
           (St (Some [0]) []))
  = [[Ev (Gi 1) (Some [5]) true]; [Ev (GradGi 0) (Some [5]) false]].
Proof. vm_compute. reflexivity. Qed.

(** ** C319: the quadratic model of a node (QP strong branching) *)

(** With the objective moved to the constraints the model's Hessian, constraints
    and Jacobian are those of another point. *)
Theorem C319_refuted : ~ C319_full.
Proof.
  intros X.
  specialize (X yes (T2T Lin) [] (Some [0]) [1; 7] _ _ Logic.I eq_refl).
  vm_compute in X.
  inversion X as [|? ? ? ? _ X2]; inversion X2 as [|? ? ? ? _ X3];
    inversion X3 as [|? ? ? ? X4 _]; subst.
  inversion X4 as [|? ? X5 _]. discriminate X5.
Qed.
Print Assumptions C319_refuted.

Theorem C319_partial : forall ok s start c0 x es w,
  plain s ->
  branching_tqp ok s x (St c0 start) = (true, es, w) ->
  right s start (tqp_calls x) es /\ length es = 5%nat.
Proof.
  intros ok s start c0 x es w P E. apply run_until_run in E.
  assert (X : right s start (tqp_calls x) (fst (run ok s (tqp_calls x) (St c0 start)))).
  { apply C315_partial; auto.
    - unfold tqp_calls. intros k I. simpl in I.
      repeat (destruct I as [<-|I]; [exact Logic.I|]). destruct I.
    - simpl. tauto. }
  rewrite E in X. simpl in X. split; auto.
  assert (L : forall A B (R : A -> B -> Prop) l l', Forall2 R l l' -> length l = length l').
  { induction 1; simpl; auto. }
  apply L in X. simpl in X. auto.
Qed.
Print Assumptions C319_partial.

Example C319_example :
  fst (branching_tqp yes (Quad User true 2) [1; 7] (St (Some [0]) []))
  = (true, [[Ev F (Some [1; 7]) true]; []; [Ev H (Some [1; 7]) false];
            [Ev G (Some [1; 7]) false]; [Ev Jac (Some [1; 7]) false]]).
Proof. vm_compute. reflexivity. Qed.

(** ** C320: the Jacobian the MILP rounding heuristic works with *)

(** It is asked for without announcing the point. *)
Theorem C320_refuted : ~ C320_full.
Proof.
  intros X.
  specialize (X yes (T2T User) [] (Some [0]) [1] Logic.I). vm_compute in X.
  inversion X as [|? ? ? ? X2 _]; subst. inversion X2 as [|? ? X3 _]. discriminate X3.
Qed.
Print Assumptions C320_refuted.

(** It is the one at the solution exactly when the user's problem was shown the
    solution last. *)
Theorem C320_partial : forall ok t start c0 x,
  right (T2T t) start [Call Jac x false] (fst (rounding_jacobian ok (T2T t) x (St c0 start)))
  <-> c0 = Some (tm_point t x).
Proof.
  intros ok t start c0 x. unfold rounding_jacobian. split.
  - intros X. destruct t; simpl in X; inversion X as [|? ? ? ? X2 _]; subst;
      inversion X2 as [|? ? X3 _]; exact X3.
  - intros ->. destruct t; simpl; repeat constructor.
Qed.
Print Assumptions C320_partial.

Example C320_example :
  fst (rounding_jacobian yes (T2T Lin) [1; 7] (St (Some [1]) []))
  = [[Ev GradF (Some [1]) false; Ev Jac (Some [1]) false]].
Proof. vm_compute. reflexivity. Qed.

(** ** C321: a point is announced to the user once *)

(** The cutoff constraint of the feasibility pump announces it twice. *)
Theorem C321_refuted : ~ C321_full.
Proof.
  intros X.
  specialize (X yes (FP (T2T User) true) (St None []) G [1] true). vm_compute in X. lia.
Qed.
Print Assumptions C321_refuted.

Theorem C321_partial : forall ok s f x nw w, no_cutoff s ->
  (announced (snd (tn_call ok s f x nw w)) <= (if nw then 1 else 0))%nat.
Proof. exact tn_announced. Qed.
Print Assumptions C321_partial.

Example C321_example :
  announced (snd (tn_call yes (FP (T2T Lin) false) Jac [1; 7] true (St None []))) = 1%nat.
Proof. vm_compute. reflexivity. Qed.

(** ** C322: the check of a solution evaluates at the solution *)
Theorem C322_check : forall ok t start c0 x lin morig,
  right (T2T t) start (check_calls x) (fst (check_solution ok (T2T t) x (St c0 start))) /\
  right (Quad t lin morig) start (check_calls x)
        (fst (check_solution ok (Quad t lin morig) x (St c0 start))).
Proof.
  intros ok t start c0 x lin morig.
  split; apply C317_shown_first; simpl; auto;
    repeat constructor; simpl; try discriminate; destruct t; auto.
Qed.
Print Assumptions C322_check.

Example C322_example :
  fst (check_solution yes (Quad Lin false 3) [1; 7] (St (Some [0]) []))
  = [[Ev F (Some [1]) true; Ev G (Some [1]) false]; []].
Proof. vm_compute. reflexivity. Qed.
