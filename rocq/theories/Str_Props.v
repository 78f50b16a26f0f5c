(** Property theorems for cut strengthening: C40, C82-C84. *)
From Verif Require Import Base Arr Oad_Model Str_Model Str_Spec Str_Proofs.
#[local] Open Scope Q_scope.

(** One variable, a constraint that always holds. *)
Definition ex_t (ty : vtype) : tminlp :=
  {| t_types := [ty]; t_f := fun _ => 0; t_gf := fun _ => None; t_g := fun _ _ => 0; t_struct := fun _ => Some [0%nat]; t_gl := [MInf]; t_gu := [PInf] |}.
Lemma ex_pre ty l u x c : NoDup (map fst c) -> str_pre (ex_t ty) (fun _ _ => 0) (Some 0%nat) [l] [u] 1 [x] c.
Proof.
  intros N. constructor; try reflexivity; try assumption; try discriminate.
  - intros i v _ E. cbn in E. assert (v = [0%nat]) by congruence. subst v. split; [repeat constructor; intros []|repeat constructor].
  - intros k l' u' _ v _ _ z a _ _ _ _ _. reflexivity.
Qed.
Definition ex_c : row := [(0%nat, -(1))].
Lemma ex_nd : NoDup (map fst ex_c). Proof. repeat constructor. intros []. Qed.

(** ** C40 *)
(** -x <= 0 for x in [0,3], at x = 3/2: the strengthened cut is x <= 2. *)
Theorem C40_refuted : ~ C40_full.
Proof.
  intros H. assert (E : HandleOneCut one_dim (ex_t INT) (fun _ _ => 0) DC_MostFractional true (Some 0%nat) [Fin 0] [Fin 3] ex_c MInf (Fin 0) 1 [3 # 2] PInf
    = Ok (true, [(0%nat, 1)], MInf, Fin 2)) by (vm_compute; reflexivity).
  assert (X : holds [(0%nat, 1)] MInf (Fin 2) [3; 0]).
  { apply (H _ _ _ _ _ _ _ _ _ _ _ _ _ _ _ _ _ one_dim_exact (ex_pre INT (Fin 0) (Fin 3) (3 # 2) ex_c ex_nd) E [3; 0]); [reflexivity| | | |].
    - intros j Hj. assert (j = 0%nat) by lia. subst j. cbn. lra.
    - exists [3], 0. split; [reflexivity|]. cbn. split; exact Logic.I.
    - intros j Hj _. assert (j = 0%nat) by lia. subst j. exists 3%Z. reflexivity.
    - split; [exact Logic.I|]. vm_compute. discriminate. }
  destruct X as (_ & X). vm_compute in X. apply X. reflexivity.
Qed.
Print Assumptions C40_refuted.
(** What holds: the strengthened cut is satisfied by all points of the box that satisfy the constraint
    and the cut, whose discrete variables are integral, and where each one that is
    fractional in the given point takes one of the two integers next to it (all values of a binary
    variable); when the solver fails the cut is not changed. *)
Theorem C40_partial : forall solver t rnd d tight gi l u c lb ub n x infty ok c' lb' ub',
  exact solver -> str_pre t rnd gi l u n x c ->
  HandleOneCut solver t rnd d tight gi l u c lb ub n x infty = Ok (ok, c', lb', ub') ->
  (ok = false -> c' = c /\ lb' = lb /\ ub' = ub) /\
  (forall z, length z = S n -> in_box n l u z -> con_ok t gi z -> integral n (t_types t) z -> near n (t_types t) x c z -> holds c lb ub z -> holds c' lb' ub' z).
Proof. intros. edestruct handle_ok as (_ & A & B & _); [eassumption..|]. split; assumption. Qed.
Print Assumptions C40_partial.
Example C40_ex :
  HandleOneCut one_dim (ex_t BIN) (fun _ _ => 0) DC_MostFractional true (Some 0%nat) [Fin 0] [Fin 1] ex_c MInf (Fin 5) 1 [1 # 3] PInf = Ok (true, [(0%nat, 0)], MInf, Fin 0) /\
  HandleOneCut one_dim (ex_t BIN) (fun _ _ => 0) DC_None false (Some 0%nat) [Fin 0] [Fin 1] ex_c MInf (Fin 5) 1 [1 # 3] PInf = Ok (true, ex_c, MInf, Fin 0) /\
  near 1 [BIN] [1 # 3] ex_c [1; 0].
Proof.
  split; [vm_compute; reflexivity|]. split; [vm_compute; reflexivity|]. intros j Hj J _ _. assert (j = 0%nat) by lia. subst j. vm_compute. split; discriminate.
Qed.

(** ** C82 *)
(** A strengthened cut is at least as strong as a cut that was valid: for points as in C40 it implies it. *)
Theorem C82 : forall solver t rnd d tight gi l u c lb ub n x infty ok c' lb' ub',
  exact solver -> str_pre t rnd gi l u n x c -> in_box n l u x -> valid_in t gi n l u c lb ub ->
  HandleOneCut solver t rnd d tight gi l u c lb ub n x infty = Ok (ok, c', lb', ub') ->
  forall z, near n (t_types t) x c z -> holds c' lb' ub' z -> holds c lb ub z.
Proof. intros. edestruct handle_ok as (_ & _ & _ & A); [eassumption..|]. apply A; assumption. Qed.
Print Assumptions C82.
Example C82_ex : in_box 1 [Fin 0] [Fin 1] [1 # 3] /\ valid_in (ex_t BIN) (Some 0%nat) 1 [Fin 0] [Fin 1] ex_c MInf (Fin 5) /\ ~ holds ex_c MInf (Fin 0) [- (1); 0] /\ holds ex_c MInf (Fin 5) [- (1); 0].
Proof.
  split; [intros j Hj; assert (j = 0%nat) by lia; subst j; cbn; lra|]. split; [|split].
  - intros z Lz Bz _. split; [exact Logic.I|]. destruct z as [|z0 [|w [|? ?]]]; try discriminate Lz. specialize (Bz 0%nat ltac:(lia)). unfold value, ex_c. cbn in *. lra.
  - intros (_ & X). vm_compute in X. apply X. reflexivity.
  - split; [exact Logic.I|]. vm_compute. discriminate.
Qed.

(** ** C83 *)
(** With binary discrete variables, and a current box inside the original one: the cut returned is satisfied by
    every integral feasible point of the original box that satisfied the cut given, and each extra cut
    by every such point of the current box. *)
Theorem C83 : forall solver t rnd ty d gi ol ou cl cu c lb ub g glb gub n x infty c' lb' ub' new,
  exact solver -> str_pre t (rnd 0%nat) gi ol ou n x c -> str_pre t (rnd 1%nat) gi cl cu n x c ->
  binary n (t_types t) ol ou -> in_box n ol ou x -> (forall z, in_box n cl cu z -> in_box n ol ou z) ->
  ComputeCuts solver t rnd ty d gi ol ou cl cu c lb ub g glb gub n x infty = Ok (c', lb', ub', new) ->
  forall z, length z = S n -> in_box n ol ou z -> con_ok t gi z -> integral n (t_types t) z -> holds c lb ub z ->
    holds c' lb' ub' z /\ (in_box n cl cu z -> forall c2 lb2 ub2, In (c2, lb2, ub2) new -> holds c2 lb2 ub2 z).
Proof.
  intros solver t rnd ty d gi ol ou cl cu c lb ub g glb gub n x infty c' lb' ub' new Ex P1 P2 B Bx Sub H z Lz Bz Cz Iz Hz.
  pose proof (near_binary n (t_types t) ol ou x c z B Bx Bz) as Nz.
  unfold ComputeCuts in H. apply bind_ok in H. destruct H as (((c1 & lb1) & ub1) & E1 & H).
  assert (G : map fst c1 = map fst c /\ holds c1 lb1 ub1 z).
  { destruct (does_global ty).
    - apply bind_ok in E1. destruct E1 as ((((ok & c0) & lb0) & ub0) & E & X). assert (c0 = c1 /\ lb0 = lb1 /\ ub0 = ub1) as (-> & -> & ->) by (repeat split; congruence).
      destruct (handle_ok _ _ _ _ _ _ _ _ _ _ _ _ _ _ _ _ _ _ Ex P1 E) as (F & _ & A & _). split; [exact F|]. apply A; assumption.
    - assert (c1 = c /\ lb1 = lb /\ ub1 = ub) as (-> & -> & ->) by (repeat split; congruence). split; [reflexivity|exact Hz]. }
  destruct G as (F & G). apply bind_ok in H. destruct H as (nw & E2 & H). assert (c1 = c' /\ lb1 = lb' /\ ub1 = ub' /\ nw = new) as (-> & -> & -> & ->) by (repeat split; congruence).
  split; [exact G|]. intros Bc c2 lb2 ub2 I. destruct (does_local ty); [|assert (new = []) by congruence; subst; destruct I].
  apply bind_ok in E2. destruct E2 as ((((ok & c3) & lb3) & ub3) & E & X).
  destruct (handle_ok _ _ _ _ _ _ _ _ _ _ _ _ _ _ _ _ _ _ Ex (str_pre_fst _ _ _ _ _ _ _ _ _ (eq_sym F) P2) E) as (_ & _ & A & _).
  specialize (A z Lz Bc Cz Iz (near_fst _ _ _ _ _ _ (eq_sym F) Nz) G).
  assert (Y : new = [(c3, lb3, ub3)] \/ new = []) by (destruct (ok && negb (eq_tol lb3 lb' && eq_tol ub' ub3))%bool; [left|right]; congruence).
  destruct Y as [Y|Y]; rewrite Y in I; [|destruct I]. destruct I as [I|[]].
  assert (c2 = c3 /\ lb2 = lb3 /\ ub2 = ub3) as (-> & -> & ->) by (repeat split; congruence). exact A.
Qed.
Print Assumptions C83.
Example C83_ex :
  binary 1 [BIN] [Fin 0] [Fin 1] /\
  ComputeCuts one_dim (ex_t BIN) (fun _ _ _ => 0) CS_StrengthenedGlobal_StrengthenedLocal DC_None (Some 0%nat) [Fin 0] [Fin 1] [Fin 1] [Fin 1] ex_c MInf (Fin 5) 0 MInf (Fin 1) 1 [1] PInf
    = Ok (ex_c, MInf, Fin 0, [(ex_c, MInf, Fin (-(1)))]).
Proof.
  split; [|vm_compute; reflexivity]. intros j Hj _. assert (j = 0%nat) by lia. subst j. split; [exists 0; split; [reflexivity|lra]|exists 1; split; [reflexivity|lra]].
Qed.

(** ** C84 *)
(** f(x) = x^2, x binary, at x = 1/2: on the side x <= 0 the derivative is zero, the variable is not
    found, and the program exits. *)
Definition sq : tminlp :=
  {| t_types := [BIN]; t_f := fun a => nth 0 a 0 * nth 0 a 0; t_gf := fun a => Some [2 * nth 0 a 0]; t_g := fun _ _ => 0; t_struct := fun _ => None; t_gl := []; t_gu := [] |}.
Theorem C84_refuted : ~ C84_full.
Proof.
  intros H. destruct (H one_dim sq (fun _ _ => 1 # 2) DC_MostFractional true None [Fin 0] [Fin 1] [(0%nat, 1); (1%nat, -(1))] MInf (Fin (1 # 4)) 1%nat [1 # 2] PInf) as (r & E).
  - constructor; try reflexivity.
    + repeat constructor; cbn; intros [X|[]] || intros []; discriminate.
    + discriminate.
    + intros a g E. cbn in E. assert (g = [2 * nth 0 a 0]) by congruence. subst g. reflexivity.
    + intros k l' u' _ v _ I z a Lz La _ Av _. cbn [func t_f sq]. rewrite (Av 0%nat); [reflexivity|]. apply I. left. reflexivity.
  - left. split; [reflexivity|discriminate].
  - exists [2 * (1 # 2)]. split; [reflexivity|]. intros j [X|[X|[]]]; cbn in X; subst j; [left; split; [lia|vm_compute; discriminate]|right; reflexivity].
  - vm_compute in E. discriminate E.
Qed.
Print Assumptions C84_refuted.
(** What holds: strengthening a constraint's cut returns normally when the cut uses only announced variables; for
    the objective it does when no derivative that appears in the cut vanishes anywhere. *)
Theorem C84_partial : forall solver t rnd d tight gi l u c lb ub n x infty,
  length (t_types t) = n -> length x = n -> length l = n -> length u = n -> one_sided lb ub ->
  match gi with
  | None => (forall a g, t_gf t a = Some g -> length g = n /\ forall j, In j (map fst c) -> ((j < n)%nat /\ ~ nth j g 0 == 0) \/ j = n)
  | Some i => (i < length (t_gl t))%nat /\ (i < length (t_gu t))%nat /\ forall v, t_struct t i = Some v -> incl (map fst c) v
  end -> exists r, HandleOneCut solver t rnd d tight gi l u c lb ub n x infty = Ok r.
Proof. exact handle_fine. Qed.
Print Assumptions C84_partial.
Example C84_ex :
  HandleOneCut one_dim sq (fun _ _ => 1 # 2) DC_MostFractional true None [Fin 0] [Fin 1] [(0%nat, 1); (1%nat, -(1))] MInf (Fin (1 # 4)) 1%nat [1 # 2] PInf = Thrown /\
  (0 < length (t_gl (ex_t INT)))%nat /\ incl (map fst ex_c) [0%nat].
Proof. split; [vm_compute; reflexivity|]. split; [cbn; lia|]. intros j H. exact H. Qed.

(** ** C133 *)
Lemma tight_spec : forall gi lb ub g glb gub, glb <> PInf -> gub <> MInf ->
  is_tight gi lb ub g glb gub PInf = true <-> active gi lb ub g glb gub.
Proof.
  intros gi lb ub g glb gub H1 H2. unfold is_tight, active. destruct gi as [i|]; [|split; [left; reflexivity|reflexivity]].
  assert (A : (negb (ext_ltb (eopp PInf) lb) && match gub with Fin v => Qle_bool (v - g) (1 # 100000000) | MInf => true | PInf => false end)%bool = true <->
              (lb = MInf /\ exists v, gub = Fin v /\ v - g <= 1 # 100000000)).
  { split.
    - intros X. apply andb_prop in X. destruct X as [X Y]. destruct lb; try discriminate X. split; [reflexivity|]. destruct gub; try congruence; try discriminate Y.
      eexists. split; [reflexivity|]. apply Qle_bool_iff, Y.
    - intros (-> & v & -> & Y). cbn [eopp ext_ltb negb andb]. apply Qle_bool_iff, Y. }
  assert (B : (negb (ext_ltb ub PInf) && match glb with Fin v => Qle_bool (g - v) (1 # 100000000) | PInf => true | MInf => false end)%bool = true <->
              (ub = PInf /\ exists v, glb = Fin v /\ g - v <= 1 # 100000000)).
  { split.
    - intros X. apply andb_prop in X. destruct X as [X Y]. destruct ub; try discriminate X. split; [reflexivity|]. destruct glb; try congruence; try discriminate Y.
      eexists. split; [reflexivity|]. apply Qle_bool_iff, Y.
    - intros (-> & v & -> & Y). cbn [ext_ltb negb andb]. apply Qle_bool_iff, Y. }
  destruct (_ && _)%bool eqn:X in |- *.
  - split; [intros _; right; left; apply A; exact X | reflexivity].
  - rewrite B. split; [intros Y; right; right; exact Y | intros [Y|[Y|Y]]; [discriminate Y | apply A in Y; congruence | exact Y]].
Qed.
Lemma close_spec a b : eq_tol a b = true <-> close a b.
Proof. destruct a, b; cbn; try (split; [discriminate|tauto]); try tauto. apply Qltb_lt. Qed.
(** Handling a cut without a disjunction. *)
Lemma plain_cut solver t rnd tight gi l u c lb ub n x ok c' lb' ub' :
  exact solver -> str_pre t rnd gi l u n x c -> in_box n l u x ->
  HandleOneCut solver t rnd DC_None tight gi l u c lb ub n x PInf = Ok (ok, c', lb', ub') ->
  c' = c /\ (tight = true -> ok = true /\ lb' = lb /\ ub' = ub) /\
  (tight = false -> if ok then supports t gi n l u c lb' ub' else lb' = lb /\ ub' = ub) /\
  (tight = false -> (forall P, solver P <> None) -> match gi with None => forall a, t_gf t a <> None | Some i => t_struct t i <> None end -> ok = true).
Proof.
  intros Ex [S1 S2 S3 S4 S5 S6 S7 S8] Bx H. cbn [HandleOneCut] in H. destruct tight.
  - split; [congruence|]. split; [intros _; repeat split; congruence|]. split; discriminate.
  - apply bind_ok in H. destruct H as (((ok1 & lb1) & ub1) & E & H). assert (ok1 = ok /\ c' = c /\ lb1 = lb' /\ ub1 = ub') as (-> & -> & -> & ->) by (repeat split; congruence).
    split; [reflexivity|]. split; [discriminate|].
    pose proof (strengthen_ok _ _ _ _ _ _ _ _ _ _ _ _ _ _ Ex S1 S2 S3 S5 S6 (S8 0%nat l u (pc_whole _ _ _ _ _ _)) E) as R. split.
    + intros _. destruct ok; [|exact R]. destruct R as (lower & b & B & _ & At). destruct At as (z & Z1 & Z2 & Z3 & Z4); [intros j Hj _; apply Bx, Hj|].
      exists z, b. split; [exact Z1|]. split; [exact Z2|]. split; [exact Z3|]. split; [exact Z4|]. destruct lower; [left|right]; split; apply B.
    + intros _ T G. unfold StrengthenCut in E. apply bind_ok in E. destruct E as (v & Ev & E). destruct v as [v|].
      * apply bind_ok in E. destruct E as (lower & _ & E). do 5 (apply bind_ok in E; destruct E as (? & _ & E)).
        match type of E with match ?s with _ => _ end = _ => destruct s eqn:X; [|destruct (T _ X)] end. destruct lower; congruence.
      * unfold sub_vars in Ev. destruct gi as [i|].
        { exfalso. apply G. congruence. }
        { apply bind_ok in Ev. destruct Ev as (xr & _ & Ev). specialize (G xr). destruct (t_gf t xr); [|congruence]. apply bind_ok in Ev. destruct Ev as (nz & _ & Ev). discriminate Ev. }
Qed.
Theorem C133 : forall solver t rnd ty gi ol ou cl cu c lb ub g glb gub n x c' lb' ub' new,
  exact solver -> str_pre t (rnd 0%nat) gi ol ou n x c -> str_pre t (rnd 1%nat) gi cl cu n x c -> in_box n ol ou x -> in_box n cl cu x ->
  glb <> PInf -> gub <> MInf ->
  ComputeCuts solver t rnd ty DC_None gi ol ou cl cu c lb ub g glb gub n x PInf = Ok (c', lb', ub', new) ->
  c' = c /\
  (active gi lb ub g glb gub \/ ~ wants_global ty -> lb' = lb /\ ub' = ub) /\
  (~ wants_local ty -> new = []) /\
  (forall c2 lb2 ub2, In (c2, lb2, ub2) new -> c2 = c /\ ~ active gi lb ub g glb gub /\ supports t gi n cl cu c lb2 ub2 /\ ~ (close lb2 lb' /\ close ub' ub2)) /\
  ((forall P, solver P <> None) -> match gi with None => forall a, t_gf t a <> None | Some i => t_struct t i <> None end -> ~ active gi lb ub g glb gub ->
     (wants_global ty -> supports t gi n ol ou c lb' ub') /\
     (wants_local ty -> exists lb2 ub2, supports t gi n cl cu c lb2 ub2 /\ (new = [(c, lb2, ub2)] \/ (new = [] /\ close lb2 lb' /\ close ub' ub2)))).
Proof.
  intros solver t rnd ty gi ol ou cl cu c lb ub g glb gub n x c' lb' ub' new Ex P1 P2 B1 B2 Gl Gu H.
  pose proof (tight_spec gi lb ub g glb gub Gl Gu) as T. unfold ComputeCuts in H. set (tight := is_tight gi lb ub g glb gub PInf) in *. clearbody tight.
  assert (DG : does_global ty = true <-> wants_global ty) by (unfold wants_global; destruct ty; cbn; split; intros X; try discriminate X; try reflexivity; try (destruct X as [X|X]; discriminate X); auto).
  assert (DL : does_local ty = true <-> wants_local ty) by (unfold wants_local; destruct ty; cbn; split; intros X; try discriminate X; try reflexivity; try (destruct X as [X|X]; discriminate X); auto).
  apply bind_ok in H. destruct H as (((c1 & lb1) & ub1) & E1 & H). apply bind_ok in H. destruct H as (nw & E2 & H).
  assert (c1 = c' /\ lb1 = lb' /\ ub1 = ub' /\ nw = new) as (-> & -> & -> & ->) by (repeat split; congruence). clear H.
  assert (G : c' = c /\ (tight = true \/ does_global ty = false -> lb' = lb /\ ub' = ub) /\
              (tight = false -> does_global ty = true -> (forall P, solver P <> None) -> match gi with None => forall a, t_gf t a <> None | Some i => t_struct t i <> None end -> supports t gi n ol ou c lb' ub')).
  { destruct (does_global ty).
    - apply bind_ok in E1. destruct E1 as ((((ok & c0) & lb0) & ub0) & E & X). assert (c0 = c' /\ lb0 = lb' /\ ub0 = ub') as (-> & -> & ->) by (repeat split; congruence).
      destruct (plain_cut _ _ _ _ _ _ _ _ _ _ _ _ _ _ _ _ Ex P1 B1 E) as (A & B & C & D). split; [exact A|]. split.
      + intros [Y|Y]; [|discriminate Y]. destruct (B Y) as (_ & Z). exact Z.
      + intros Y _ S K. specialize (D Y S K). subst ok. exact (C Y).
    - split; [congruence|]. split; [intros _; split; congruence|discriminate]. }
  destruct G as (-> & G1 & G2). split; [reflexivity|]. split.
  { intros [Y|Y]; apply G1; [left; apply T, Y | right]. destruct (does_global ty); [|reflexivity]. destruct Y. apply DG. reflexivity. }
  assert (L : does_local ty = false -> new = []) by (intros Y; rewrite Y in E2; congruence).
  split; [intros Y; apply L; destruct (does_local ty); [destruct Y; apply DL; reflexivity | reflexivity]|].
  assert (M : does_local ty = true -> exists ok lb2 ub2, new = (if (ok && negb (eq_tol lb2 lb' && eq_tol ub' ub2))%bool then [(c, lb2, ub2)] else []) /\
     (tight = true -> lb2 = lb' /\ ub2 = ub') /\ (tight = false -> ok = true -> supports t gi n cl cu c lb2 ub2) /\
     (tight = false -> (forall P, solver P <> None) -> match gi with None => forall a, t_gf t a <> None | Some i => t_struct t i <> None end -> ok = true)).
  { intros Y. rewrite Y in E2. apply bind_ok in E2. destruct E2 as ((((ok & c3) & lb3) & ub3) & E & X).
    destruct (plain_cut _ _ _ _ _ _ _ _ _ _ _ _ _ _ _ _ Ex P2 B2 E) as (-> & B & C & D). exists ok, lb3, ub3. split; [congruence|]. split; [intros Z; apply (B Z)|]. split; [|exact D].
    intros Z1 ->. exact (C Z1). }
  assert (Refl : forall a, eq_tol a a = true).
  { intros [|q|]; try reflexivity. unfold eq_tol. apply Qltb_lt. unfold Qminus. rewrite (Qplus_opp_r q). reflexivity. }
  split.
  - intros c2 lb2 ub2 I. destruct (does_local ty) eqn:Y; [|rewrite (L eq_refl) in I; destruct I]. destruct (M eq_refl) as (ok & lb3 & ub3 & N & A & B & _).
    destruct (ok && negb (eq_tol lb3 lb' && eq_tol ub' ub3))%bool eqn:X; rewrite N in I; [|destruct I]. destruct I as [I|[]].
    assert (c2 = c /\ lb2 = lb3 /\ ub2 = ub3) as (-> & -> & ->) by (repeat split; congruence).
    apply andb_prop in X. destruct X as [X1 X2]. apply Bool.negb_true_iff in X2. subst ok. destruct tight eqn:Tg.
    + destruct (A eq_refl) as (-> & ->). rewrite !Refl in X2. discriminate X2.
    + split; [reflexivity|]. split; [intros Z; apply T in Z; discriminate Z|]. split; [apply B; reflexivity|].
      intros (Z1 & Z2). apply close_spec in Z1. apply close_spec in Z2. rewrite Z1, Z2 in X2. discriminate X2.
  - intros S K NA. assert (Tg : tight = false) by (destruct tight; [destruct NA; apply T; reflexivity|reflexivity]). split.
    + intros Y. apply DG in Y. apply G2; assumption.
    + intros Y. apply DL in Y. destruct (M Y) as (ok & lb3 & ub3 & N & _ & B & C). rewrite (C Tg S K) in *. exists lb3, ub3. split; [apply B; [exact Tg|reflexivity]|].
      cbn [andb] in N. destruct (eq_tol lb3 lb' && eq_tol ub' ub3)%bool eqn:X; cbn [negb] in N; [right|left; exact N].
      apply andb_prop in X. destruct X as [X1 X2]. apply close_spec in X1. apply close_spec in X2. auto.
Qed.
Print Assumptions C133.
Example C133_ex :
  ~ active (Some 0%nat) MInf (Fin 5) 0 MInf (Fin 1) /\ wants_local CS_StrengthenedGlobal_StrengthenedLocal /\
  ComputeCuts one_dim (ex_t BIN) (fun _ _ _ => 0) CS_StrengthenedGlobal_StrengthenedLocal DC_None (Some 0%nat) [Fin 0] [Fin 1] [Fin 1] [Fin 1] ex_c MInf (Fin 5) 0 MInf (Fin 1) 1 [1] PInf
    = Ok (ex_c, MInf, Fin 0, [(ex_c, MInf, Fin (-(1)))]).
Proof.
  split; [|split; [right; reflexivity|vm_compute; reflexivity]]. intros [X|[(_ & v & E & X)|(X & _)]]; try discriminate X.
  assert (v = 1) by congruence. subst v. lra.
Qed.
