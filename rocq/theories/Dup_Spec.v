(** What users of an OsiTMINLPInterface and of its copies rely on. *)
From Verif Require Import Base Arr Nlp FP_Model Dup_Model.
#[local] Open Scope Q_scope.

Section S.
Variable U : nat -> nlp.
(** The user's problems obey the interface contract. *)
Definition users_ok : Prop := forall u, nlp_ok (U u).
Definition reach (s : st) : Prop := exists l, execs U l init = Ok s.
(** What can be seen of the interface: the problem solved, bounds, point, and the problem cuts are taken from. *)
Record view := mkView { v_posed : outcome pose; v_bounds : outcome (list ext * list ext); v_point : outcome (list Q); v_cuts : outcome pose }.
Definition see (s : st) (x : ifc) : view := mkView (posed s x) (bounds s x) (point U s x) (linearized s x).
Definition at_ (s : st) (i : nat) (x : ifc) : Prop := nth_error (s_ifs s) i = Some x.
(** The interface was given a problem. *)
Definition ready (x : ifc) : Prop := i_user x <> None.
(** The user's problem as it was given. *)
Definition original (u : nat) : pose := mkPose u (p_xl (U u)) (p_xu (U u)) None.
Definition extra (p : pose) : bool := match o_fp p with Some f => (f_cut f || f_lb f)%bool | None => false end.
(** The Jacobian of the user's problem, counted from 0. *)
Definition jac_of (u : nat) : list (nat * nat) := map (fun rc => (fst rc - p_off (U u), snd rc - p_off (U u))%nat) (p_jst (U u)).
(** Use and assignment are not called on an interface that is switched to its feasibility problem. *)
Fixpoint calm (l : list op) (s : st) : Prop :=
  match l with
  | [] => True
  | o :: l' =>
      (match o with Use i _ | Assign i _ => forall x, at_ s i x -> i_mode x = false | _ => True end) /\
      forall s', exec U o s = Ok s' -> calm l' s'
  end.
(** The interface an operation is called on. *)
Definition target (o : op) : option nat :=
  match o with
  | New => None
  | SetModel i _ | Use i _ | SetBounds i _ _ _ | ToPump i _ _ _ _ _ | ToLocal i _ _ _ | ToOriginal i | SolveF i _ _ _ _ _ _ _
  | Solve i _ _ | SetLin i | SetStrong i | Mark i | Unmark i | Assign i _ | Cuts i | Relax i => Some i
  | Copy i => None
  end.

(** What cuts are made of. *)
Definition cuts_of (i : nat) (s : st) : outcome cutdata := do ' (c, _) <- outerApproximation U i s; Ok c.
(** Marking or unmarking of the solver [b] of strong branching. *)
Definition remarks (o : op) (b : nat) (s : st) : Prop :=
  match o with Mark k | Unmark k => exists z, at_ s k z /\ i_sbs z = Some b | _ => False end.
(** [b] is not marked or unmarked again along a history. *)
Fixpoint alone (b : nat) (l : list op) (s : st) : Prop :=
  match l with [] => True | o :: l' => ~ remarks o b s /\ forall s', exec U o s = Ok s' -> alone b l' s' end.
(** Number of rows added by the feasibility problem. *)
Definition rows_extra (p : pose) : nat := match o_fp p with Some f => b2n (f_cut f) + b2n (f_lb f) | None => 0%nat end.
(** A problem is replaced only as long as no cuts were made from the old one. *)
Fixpoint steady (l : list op) (s : st) : Prop :=
  match l with
  | [] => True
  | o :: l' =>
      (match o with
       | SetModel i _ | Use i _ => forall x, at_ s i x -> i_pat x = None
       | Assign i j => forall x y, at_ s i x -> at_ s j y -> i = j \/ (i_pat x = None /\ i_pat y = None)
       | _ => True
       end) /\ forall s', exec U o s = Ok s' -> steady l' s'
  end.
(** The answer that counts: the first without an error, otherwise the last. *)
Fixpoint used (a : answer) (l : list answer) : list Q := match l with [] => snd a | b :: l' => if fst a then used b l' else snd a end.

(** C144: a copy is seen like its source. *)
Definition C144_full : Prop := forall s i x s', reach s -> at_ s i x -> ready x -> exec U (Copy i) s = Ok s' ->
  exists y, at_ s' (length (s_ifs s)) y /\ see s' y = see s x.
(** C145: what is done to one interface is not seen through the others, strong branching included. *)
Definition C145_full : Prop := forall s o s' j x, reach s -> exec U o s = Ok s' -> at_ s j x -> target o <> Some j ->
  exists y, at_ s' j y /\ see s' y = see s x /\ trial s' y = trial s x.
(** C146: after an assignment, which succeeds, the left-hand side is seen like the right-hand side. *)
Definition C146_full : Prop := forall s i j x y, reach s -> i <> j -> at_ s i x -> at_ s j y -> ready y ->
  exists s' x', exec U (Assign i j) s = Ok s' /\ at_ s' i x' /\ see s' x' = see s y.
(** C147: a new problem replaces the old one everywhere. *)
Definition C147_full : Prop := forall s i x u o s', reach s -> at_ s i x -> i_mode x = false -> o = SetModel i u \/ o = Use i u -> exec U o s = Ok s' ->
  exists y, at_ s' i y /\ see s' y = mkView (Ok (original u)) (Ok (p_xl (U u), p_xu (U u))) (Ok (p_x0 (U u))) (Ok (original u)) /\
  exists t, outerApproximation U i s' = Ok (mkCd (jac_of u) (p_lin (U u)), t).
(** C148: the status and point reported after a solve are those of the problem posed. *)
Definition C148_full : Prop := forall s i x a l s', reach s -> at_ s i x -> exec U (Solve i a l) s = Ok s' ->
  exists y p, at_ s' i y /\ posed s x = Ok p /\ i_rep y = Some p.
(** C149: after switching to a feasibility problem every solve is one of it, with the bounds as they are then, until the interface
    is switched again or given another problem; switching back gives the original problem with the bounds as they are. *)
Definition leaves (i : nat) (o : op) : bool :=
  match o with
  | SetModel k _ | Use k _ | ToPump k _ _ _ _ _ | ToLocal k _ _ _ | ToOriginal k | Assign k _ => Nat.eqb k i
  | _ => false
  end.
Definition C149_full : Prop := forall s i o s1 x f p l s2 y,
  reach s -> (exists inds vals a sg L, o = ToPump i inds vals a sg L) \/ (exists inds vals rhs, o = ToLocal i inds vals rhs) ->
  exec U o s = Ok s1 -> at_ s1 i x -> posed s1 x = Ok p -> o_fp p = Some f ->
  existsb (leaves i) l = false -> execs U l s1 = Ok s2 -> at_ s2 i y ->
  exists lo up, bounds s2 y = Ok (lo, up) /\ posed s2 y = Ok (mkPose (o_user p) lo up (Some f)).
(** C150: cuts are made of the Jacobian of the problem posed, whatever was done before. *)
Definition C150_full : Prop := forall s i x p, reach s -> at_ s i x -> ready x -> i_lin x = None -> posed s x = Ok p ->
  exists t s', outerApproximation U i s = Ok (mkCd (pattern U p) t, s') /\ firstn (p_m (U (o_user p))) t = p_lin (U (o_user p)).
(** C151: the linear relaxation can be taken of the problem posed, whatever it is. *)
Definition C151_full : Prop := forall s i x p, reach s -> at_ s i x -> ready x -> i_lin x = None -> posed s x = Ok p ->
  exists t s', linearRelaxation U i s = Ok (mkCd (pattern U p) t, s') /\ firstn (p_m (U (o_user p))) t = p_lin (U (o_user p)).
(** C152: the trials of strong branching are about the problem posed when strong branching started. *)
Definition C152_full : Prop := forall s i x p s1 l s2 y, reach s -> at_ s i x -> posed s x = Ok p -> i_sbs x <> None -> exec U (Mark i) s = Ok s1 ->
  (forall o, In o l -> target o <> Some i) -> execs U l s1 = Ok s2 -> at_ s2 i y -> trial s2 y = Ok p.
End S.
