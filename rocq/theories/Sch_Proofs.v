(** Proofs for whole searches. *)
From Verif Require Import Base Tree_Model Tree_Spec Tree_Proofs Sch_Model Sch_Spec.

(** What the loop needs of a tree.  [inv b n t]: the tree may be given a parent back ([b]) and a new node ([n]). *)
Record tree_ok {T} (tstep : T -> op -> outcome (T * event)) (tempty : T -> bool) (contents : T -> list node)
    (inv : bool -> bool -> T -> Prop) (dok : Z -> Prop) (mok : mode -> Prop) : Prop := {
  tk_weak : forall b n t, inv b n t -> inv false false t;
  tk_new : forall b t x, inv b true t -> Tree_Model.fresh x = true -> dok (ndepth x) ->
    exists t', tstep t (Push x) = Ok (t', EvPush x) /\ Permutation (contents t') (x :: contents t) /\ inv b false t';
  tk_back : forall n t x, inv true n t -> Tree_Model.fresh x = false -> dok (ndepth x) ->
    exists t', tstep t (Push x) = Ok (t', EvPush x) /\ Permutation (contents t') (x :: contents t) /\ inv false n t';
  tk_best : forall t c, inv false false t -> contents t <> [] ->
    (forall x, In x (contents t) -> (nobj x < c)%Q) ->
    exists t' x, tstep t (Best c) = Ok (t', EvBest c (Some x) []) /\
      Permutation (contents t) (x :: contents t') /\ inv (Tree_Model.fresh x) true t';
  tk_clean : forall b n t c, inv b n t ->
    exists t' d, tstep t (Clean c) = Ok (t', EvClean c d) /\ Permutation (contents t) (d ++ contents t') /\
      Forall (fun x => (c <= nobj x)%Q) d /\ (forall x, In x (contents t') -> (nobj x < c)%Q) /\ inv b n t';
  tk_mode : forall b n t m, inv b n t -> mok m ->
    exists t', tstep t (SetMode m) = Ok (t', EvMode) /\ Permutation (contents t') (contents t) /\ inv b n t';
  tk_empty : forall t, tempty t = true <-> contents t = []
}.

Section Generic.
  Variables (R P T : Type).
  Variable feas : P -> Prop.
  Variable obj : P -> Q.
  Variable mem : P -> R -> Prop.
  Variable relax : nat -> R -> answer R P.
  Variable tstep : T -> op -> outcome (T * event).
  Variable tempty : T -> bool.
  Variable contents : T -> list node.
  Variable inv : bool -> bool -> T -> Prop.
  Variable mok : mode -> Prop.
  Variable inc : Q.
  Variable heur : nat -> option (Q * P).
  Variables onsol tick : T -> nat -> list mode.
  Variable size : R -> nat.
  Variable c0 : Q.
  Variable root : R.
  Let D := Z.of_nat (size root).
  Definition dok_of (D : Z) (d : Z) : Prop := (0 <= d /\ d + 1 <= D)%Z.
  Hypothesis TK : tree_ok tstep tempty contents inv (dok_of D) mok.
  Hypothesis RS : relax_sound R P feas obj mem relax.
  Hypothesis SH : relax_shrinks R P relax size.
  Hypothesis HS : heur_sound P feas obj heur.
  Hypothesis OK1 : forall t n, Forall mok (onsol t n).
  Hypothesis OK2 : forall t n, Forall mok (tick t n).

  Notation st := (st R P T).
  Notation offer := (offer R P T tstep inc onsol).
  Notation expand := (expand R P T relax tstep inc onsol).
  Notation round := (round R P T relax tstep tempty inc heur onsol tick).
  Notation loop := (loop R P T relax tstep tempty inc heur onsol tick).
  Notation rounds := (rounds R P T relax tstep tempty inc heur onsol tick).

  Definition W (r : R) : nat := 4 ^ size r.
  Lemma W_pos r : 1 <= W r.
  Proof. unfold W. pose proof (Nat.pow_nonzero 4 (size r)). lia. Qed.
  Definition wnode (tab : list (R * R)) (x : node) : nat :=
    match nth_error tab (nid x) with
    | Some (a, b) => if Nat.eqb (nleft x) 2 then 2 + W a + W b else 1 + W b
    | None => 0
    end.
  Definition wt (tab : list (R * R)) (l : list node) : nat := fold_right (fun x k => wnode tab x + k) 0 l.
  Lemma wt_perm tab l l' : Permutation l l' -> wt tab l = wt tab l'.
  Proof. induction 1; simpl; lia. Qed.
  Lemma wt_app tab l l' : wt tab (l ++ l') = wt tab l + wt tab l'.
  Proof. induction l; simpl; lia. Qed.

  Definition node_ok (tab : list (R * R)) (x : node) : Prop :=
    nbr x = 2 /\ (nleft x = 1 \/ nleft x = 2) /\ (0 <= ndepth x)%Z /\
    exists a b, nth_error tab (nid x) = Some (a, b) /\
      (ndepth x + 1 + Z.of_nat (size a) <= D)%Z /\ (ndepth x + 1 + Z.of_nat (size b) <= D)%Z.
  Definition pend (tab : list (R * R)) (x : node) (p : P) : Prop :=
    exists a b, nth_error tab (nid x) = Some (a, b) /\ ((nleft x = 2 /\ mem p a) \/ mem p b).

  Definition target (s : st) (p : P) : Prop :=
    feas p /\ mem p root /\ (obj p < c0)%Q /\ (obj p < s_cut s)%Q /\
    match s_best s with Some (v, _) => (obj p < v)%Q | None => True end.

  Record J (hole : P -> Prop) (b n : bool) (s : st) : Prop := {
    j_inv : inv b n (s_tree s);
    j_low : forall x, In x (contents (s_tree s)) -> (nobj x < s_cut s)%Q;
    j_node : forall x, In x (contents (s_tree s)) -> node_ok (s_tab s) x;
    j_best : match s_best s with
             | Some (v, x) => feas x /\ (obj x == v)%Q /\ (v < c0)%Q /\ s_cut s = (v - inc)%Q
             | None => s_cut s = c0
             end;
    j_cover : forall p, target s p ->
      hole p \/ exists x, In x (contents (s_tree s)) /\ (nobj x <= obj p)%Q /\ pend (s_tab s) x p
  }.
  Definition none (_ : P) : Prop := False.
  Definition weight (s : st) : nat := wt (s_tab s) (contents (s_tree s)).

  Lemma set_modes_ok b n ms : forall t, Forall mok ms -> inv b n t ->
    exists t', set_modes T tstep t ms = Ok t' /\ Permutation (contents t') (contents t) /\ inv b n t'.
  Proof.
    induction ms as [|m ms IH]; intros t F I; simpl.
    - exists t. auto.
    - inversion F; subst. destruct (tk_mode _ _ _ _ _ _ TK b n t m I H1) as (t1 & -> & P1 & I1). cbn [bind].
      destruct (IH t1 H2 I1) as (t2 & -> & P2 & I2). exists t2. split; [reflexivity|]. split; [|auto].
      rewrite P2. exact P1.
  Qed.

  Lemma J_tree hole b n s t : J hole b n s -> Permutation (contents t) (contents (s_tree s)) -> inv b n t ->
    J hole b n (with_tree R P T s t) /\ weight (with_tree R P T s t) = weight s.
  Proof.
    intros H PE I. split.
    - destruct H as [A B C D' E]. constructor; simpl; auto.
      + intros x Hx. apply B. eapply Permutation_in; eauto.
      + intros x Hx. apply C. eapply Permutation_in; eauto.
      + intros p Hp. destruct (E p Hp) as [?|(x & Hx & K)]; [auto|right].
        exists x. split; [|exact K]. eapply Permutation_in; [symmetry; exact PE|exact Hx].
    - unfold weight; simpl. apply wt_perm. exact PE.
  Qed.

  (** Offering a feasible point.  When it is not taken it is no better than what is held. *)
  Lemma offer_ok hole b n s v x : J hole b n s -> feas x -> (obj x == v)%Q ->
    exists s', offer s v x = Ok s' /\ J hole b n s' /\ weight s' <= weight s /\
      s_tab s' = s_tab s /\ s_round s' = s_round s /\
      (forall p, target s' p -> (obj p < v)%Q) /\
      (forall p, target s' p -> target s p).
  Proof.
    intros H Fx Ox. unfold Sch_Model.offer. destruct (accepts R P T s v) eqn:A.
    - unfold accepts in A. apply andb_true_iff in A as (A1 & A2). apply Qltb_lt in A1.
      destruct (tk_clean _ _ _ _ _ _ TK b n (s_tree s) (v - inc) (j_inv _ _ _ _ H))
        as (t1 & d & -> & PE & FD & LO & I1). cbn [bind].
      destruct (set_modes_ok b n (onsol t1 (S (s_nsol s))) t1 (OK1 _ _) I1) as (t2 & -> & P2 & I2). cbn [bind].
      eexists. split; [reflexivity|].
      assert (V : (v < c0)%Q /\ forall w y, s_best s = Some (w, y) -> (v < w)%Q).
      { pose proof (j_best _ _ _ _ H) as JB. destruct (s_best s) as [[w y]|].
        - apply Qltb_lt in A2. destruct JB as (_ & _ & L & _). split; [lra|].
          intros w' y' E. injection E as <- <-. exact A2.
        - rewrite JB in A1. split; [exact A1|discriminate]. }
      destruct V as (V1 & V2).
      assert (TT : forall p, target (mkSt R P T t2 (s_tab s) (v - inc) (Some (v, x)) (S (s_nsol s)) (s_round s)) p -> target s p).
      { intros p (T1 & T2 & T3 & T4 & T5). simpl in *. unfold target. split; [auto|]. split; [auto|]. split; [auto|].
        pose proof (j_best _ _ _ _ H) as JB. destruct (s_best s) as [[w y]|].
        - destruct JB as (_ & _ & _ & ->). specialize (V2 w y eq_refl). split; lra.
        - rewrite JB. auto. }
      split; [|split; [|split; [|split; [|split]]]]; auto.
      + constructor; simpl; auto.
        * intros y Hy. apply LO. eapply Permutation_in; eauto.
        * intros y Hy. apply (j_node _ _ _ _ H). eapply Permutation_in; [symmetry; exact PE|].
          apply in_or_app. right. eapply Permutation_in; eauto.
        * intros p Hp. destruct (j_cover _ _ _ _ H p (TT p Hp)) as [?|(y & Hy & K1 & K2)]; [auto|right].
          exists y. split; [|auto]. eapply Permutation_in; [symmetry; exact P2|].
          apply (Permutation_in y PE) in Hy. apply in_app_or in Hy as [Hy|Hy]; [|auto].
          exfalso. rewrite Forall_forall in FD. specialize (FD y Hy).
          destruct Hp as (_ & _ & _ & T4 & _). simpl in T4. lra.
      + unfold weight; simpl. rewrite (wt_perm _ _ _ P2), (wt_perm _ _ _ PE), wt_app. lia.
      + intros p (_ & _ & _ & _ & T5). exact T5.
    - exists s. split; [reflexivity|]. split; [auto|]. split; [auto|]. split; [auto|]. split; [auto|].
      split; [|auto]. intros p (T1 & T2 & T3 & T4 & T5). unfold accepts in A.
      apply andb_false_iff in A as [A|A].
      + apply Qltb_ge in A. lra.
      + destruct (s_best s) as [[w y]|]; [|discriminate]. apply Qltb_ge in A. lra.
  Qed.

  Lemma node_ok_app tab e x : node_ok tab x -> node_ok (tab ++ e) x.
  Proof.
    intros (A & B & C & a & b & E & K). split; [auto|]. split; [auto|]. split; [auto|]. exists a, b. split; [|auto].
    rewrite nth_error_app1; [auto|]. apply nth_error_Some. congruence.
  Qed.
  Lemma wnode_app tab e x : node_ok tab x -> wnode (tab ++ e) x = wnode tab x.
  Proof.
    intros (_ & _ & _ & a & b & E & _). unfold wnode. rewrite nth_error_app1; [auto|]. apply nth_error_Some. congruence.
  Qed.
  Lemma pend_app tab e x p : pend tab x p -> pend (tab ++ e) x p.
  Proof.
    intros (a & b & E & K). exists a, b. split; [|auto].
    rewrite nth_error_app1; [auto|]. apply nth_error_Some. congruence.
  Qed.
  Lemma wt_tab_app tab e l : (forall x, In x l -> node_ok tab x) -> wt (tab ++ e) l = wt tab l.
  Proof.
    induction l as [|x l IH]; intros F; simpl; [reflexivity|].
    rewrite wnode_app by (apply F; left; reflexivity). rewrite IH; [reflexivity|]. intros y Hy. apply F. right. exact Hy.
  Qed.

  Lemma J_weak hole b n s : J hole b n s -> J hole false false s.
  Proof. intros [A B C E F]. constructor; auto. eapply (tk_weak _ _ _ _ _ _ TK); eauto. Qed.

  (** Solving the subproblem in hand. *)
  Lemma expand_ok b s d r : J (fun p => mem p r) b true s ->
    (0 <= d)%Z -> (d + Z.of_nat (size r) <= D)%Z ->
    exists s', expand s d r = Ok s' /\ J none false false s' /\ weight s' <= weight s + W r /\ s_round s' = s_round s.
  Proof.
    intros H D1 D2. unfold Sch_Model.expand. pose proof (RS (s_round s) r) as RR. destruct (relax (s_round s) r) as [|v x|v g a c] eqn:E.
    - exists s. split; [reflexivity|]. split; [|split; [lia|auto]].
      pose proof (J_weak _ _ _ _ H) as [A B C E' F]. constructor; auto.
      intros p Hp. destruct (F p Hp) as [K|K]; [|auto]. exfalso. apply (RR p); [apply Hp|exact K].
    - destruct RR as (R1 & R2 & R3).
      destruct (offer_ok _ _ _ s v x H R1 R2) as (s' & -> & J' & L & TB & RD & LT & _).
      exists s'. split; [reflexivity|]. split; [|split; [lia|auto]].
      pose proof (J_weak _ _ _ _ J') as [A B C E' F]. constructor; auto.
      intros p Hp. destruct (F p Hp) as [K|K]; [|auto]. exfalso.
      specialize (R3 p (proj1 Hp) K). specialize (LT p Hp). lra.
    - destruct (SH _ _ _ _ _ _ E) as (S1 & S2).
      destruct (Qltb v (s_cut s)) eqn:C.
      + apply Qltb_lt in C.
        set (nd := mkNode (length (s_tab s)) v g d 2 2).
        destruct (tk_new _ _ _ _ _ _ TK b (s_tree s) nd (j_inv _ _ _ _ H)) as (t' & -> & PE & I').
        { reflexivity. }
        { unfold dok_of. simpl. lia. }
        cbn [bind]. eexists. split; [reflexivity|]. split; [|split; [|reflexivity]].
        * constructor; simpl.
          -- eapply (tk_weak _ _ _ _ _ _ TK); eauto.
          -- intros y Hy. apply (Permutation_in y PE) in Hy as [<-|Hy]; [exact C|]. apply (j_low _ _ _ _ H). exact Hy.
          -- intros y Hy. apply (Permutation_in y PE) in Hy as [<-|Hy].
             ++ split; [reflexivity|]. split; [right; reflexivity|]. split; [exact D1|]. exists a, c. simpl.
                rewrite nth_error_app2, Nat.sub_diag by lia. simpl. split; [reflexivity|]. lia.
             ++ apply node_ok_app. apply (j_node _ _ _ _ H). exact Hy.
          -- apply (j_best _ _ _ _ H).
          -- intros p Hp. right. destruct (j_cover _ _ _ _ H p Hp) as [K|(y & Hy & K1 & K2)].
             ++ destruct (RR p (proj1 Hp) K) as (L & M). exists nd. split.
                { eapply Permutation_in; [symmetry; exact PE|]. left. reflexivity. }
                split; [exact L|]. exists a, c. simpl. rewrite nth_error_app2, Nat.sub_diag by lia.
                split; [reflexivity|]. destruct M; auto.
             ++ exists y. split; [|split; [auto|apply pend_app; auto]].
                eapply Permutation_in; [symmetry; exact PE|]. right. exact Hy.
        * unfold weight; simpl. rewrite (wt_perm _ _ _ PE). simpl.
          rewrite wt_tab_app by apply (j_node _ _ _ _ H).
          unfold wnode. simpl nid. rewrite nth_error_app2, Nat.sub_diag by lia. simpl.
          assert (K : 2 + W a + W c <= W r).
          { unfold W.
            assert (A1 : 4 ^ size a <= 4 ^ (size r - 1)) by (apply Nat.pow_le_mono_r; lia).
            assert (A2 : 4 ^ size c <= 4 ^ (size r - 1)) by (apply Nat.pow_le_mono_r; lia).
            assert (A3 : 4 ^ size r = 4 * 4 ^ (size r - 1)).
            { rewrite <- Nat.pow_succ_r'. f_equal. lia. }
            pose proof (Nat.pow_nonzero 4 (size r - 1)). lia. }
          lia.
      + apply Qltb_ge in C. exists s. split; [reflexivity|]. split; [|split; [lia|auto]].
        pose proof (J_weak _ _ _ _ H) as [A B C' E' F]. constructor; auto.
        intros p Hp. destruct (F p Hp) as [K|K]; [|auto]. exfalso.
        destruct (RR p (proj1 Hp) K) as (L & _). destruct Hp as (_ & _ & _ & T4 & _). lra.
  Qed.

  Lemma weight_pos s : J none false false s -> tempty (s_tree s) = false -> 1 <= weight s.
  Proof.
    intros H E. assert (N : contents (s_tree s) <> []).
    { intros N. apply (tk_empty _ _ _ _ _ _ TK) in N. congruence. }
    unfold weight. pose proof (j_node _ _ _ _ H) as JN. destruct (contents (s_tree s)) as [|x l]; [congruence|].
    simpl. destruct (JN x (or_introl eq_refl)) as (_ & _ & _ & a & b & EE & _). unfold wnode. rewrite EE.
    destruct (Nat.eqb (nleft x) 2); lia.
  Qed.

  Lemma round_ok s : J none false false s -> tempty (s_tree s) = false ->
    exists s', round s = Ok s' /\ J none false false s' /\ weight s' < weight s.
  Proof.
    intros H E. pose proof (weight_pos s H E) as WP. unfold Sch_Model.round. cbv zeta. cbn [s_tree s_round].
    set (s1 := mkSt R P T (s_tree s) (s_tab s) (s_cut s) (s_best s) (s_nsol s) (S (s_round s))).
    assert (J1 : J none false false s1) by (destruct H as [A B C E' F]; constructor; auto).
    destruct (set_modes_ok false false (tick (s_tree s) (S (s_round s))) (s_tree s) (OK2 _ _) (j_inv _ _ _ _ H))
      as (t0 & -> & P0 & I0). cbn [bind].
    destruct (J_tree _ _ _ s1 t0 J1 P0 I0) as (J2 & W2). set (s2 := with_tree R P T s1 t0) in *.
    assert (K : exists s3, match heur (s_round s2) with Some (v, x) => offer s2 v x | None => Ok s2 end = Ok s3 /\
                 J none false false s3 /\ weight s3 <= weight s2).
    { destruct (heur (s_round s2)) as [[v x]|] eqn:EH.
      - destruct (HS _ _ _ EH) as (F1 & F2).
        destruct (offer_ok _ _ _ s2 v x J2 F1 F2) as (s3 & -> & J3 & L & _). eauto.
      - exists s2. auto. }
    change (s_round s2) with (S (s_round s)) in K.
    destruct K as (s3 & K & J3 & W3). cbn [with_tree s_round s1] in K |- *. subst s2 s1. cbn [with_tree s_round s_tree s_tab s_cut s_best s_nsol] in *.
    rewrite K. cbn [bind]. change (weight s) with (wt (s_tab s) (contents (s_tree s))) in *.
    clear K. unfold weight at 1 in W2. cbn [s_tree s_tab] in W2.
    assert (W4 : weight s3 <= wt (s_tab s) (contents (s_tree s))).
    { unfold weight in W3 at 2. cbn [s_tree s_tab] in W3. rewrite W2 in W3. exact W3. }
    destruct (tempty (s_tree s3)) eqn:E3.
    - exists s3. split; [reflexivity|]. split; [auto|].
      apply (tk_empty _ _ _ _ _ _ TK) in E3. unfold weight. rewrite E3. simpl. lia.
    - assert (N : contents (s_tree s3) <> []).
      { intros N. apply (tk_empty _ _ _ _ _ _ TK) in N. congruence. }
      destruct (tk_best _ _ _ _ _ _ TK (s_tree s3) (s_cut s3) (j_inv _ _ _ _ J3) N (j_low _ _ _ _ J3))
        as (t1 & x & -> & PE & I1). cbn [bind].
      assert (IX : In x (contents (s_tree s3))) by (eapply Permutation_in; [symmetry; exact PE|left; reflexivity]).
      pose proof (j_low _ _ _ _ J3 x IX) as LX.
      assert (EC : Qltb (s_cut s3) (nobj x) = false).
      { destruct (Qltb (s_cut s3) (nobj x)) eqn:EC; [apply Qltb_lt in EC; lra|reflexivity]. }
      cbn [with_tree s_cut]. rewrite EC.
      destruct (j_node _ _ _ _ J3 x IX) as (NB & NL & DX & a & b & ET & DA & DB). cbn [with_tree s_tab]. rewrite ET.
      assert (WX : weight s3 = wnode (s_tab s3) x + wt (s_tab s3) (contents t1)).
      { unfold weight. rewrite (wt_perm _ _ _ PE). reflexivity. }
      unfold wnode in WX. rewrite ET in WX.
      assert (IN1 : forall y, In y (contents t1) -> In y (contents (s_tree s3))).
      { intros y Hy. eapply Permutation_in; [symmetry; exact PE|right; exact Hy]. }
      destruct (Nat.eqb (nleft x) 2) eqn:EL.
      + apply Nat.eqb_eq in EL.
        assert (FX : Tree_Model.fresh x = true) by (unfold Tree_Model.fresh; rewrite EL, NB; reflexivity).
        rewrite FX in I1.
        set (x1 := mkNode (nid x) (nobj x) (nguess x) (ndepth x) 1 (nbr x)).
        destruct (tk_back _ _ _ _ _ _ TK true t1 x1 I1) as (t2 & E2 & P2 & I2).
        { unfold Tree_Model.fresh. simpl. rewrite NB. reflexivity. }
        { unfold dok_of. simpl. lia. }
        cbn [with_tree s_tree] in *. rewrite E2. cbn [bind].
        match goal with |- exists s', expand ?s0 _ _ = _ /\ _ => set (s4 := s0) end.
        assert (J4 : J (fun p => mem p a) false true s4).
        { constructor; simpl; auto.
          - intros y Hy. apply (Permutation_in y P2) in Hy as [<-|Hy]; [exact LX|]. apply (j_low _ _ _ _ J3). auto.
          - intros y Hy. apply (Permutation_in y P2) in Hy as [<-|Hy]; [|apply (j_node _ _ _ _ J3); auto].
            split; [exact NB|]. split; [left; reflexivity|]. split; [exact DX|]. exists a, b. simpl. auto.
          - apply (j_best _ _ _ _ J3).
          - intros p Hp. destruct (j_cover _ _ _ _ J3 p Hp) as [[]|(y & Hy & K1 & K2)].
            apply (Permutation_in y PE) in Hy as [KY|Hy].
            + rewrite <- KY in *. destruct K2 as (a' & b' & E' & K2). rewrite ET in E'. injection E' as <- <-.
              destruct K2 as [[_ K2]|K2]; [left; exact K2|]. right. exists x1. split.
              { eapply Permutation_in; [symmetry; exact P2|left; reflexivity]. }
              split; [exact K1|]. exists a, b. simpl. auto.
            + right. exists y. split; [|auto]. eapply Permutation_in; [symmetry; exact P2|right; exact Hy]. }
        destruct (expand_ok _ s4 (ndepth x + 1) a J4) as (s5 & E5 & J5 & W5 & _); [lia|lia|].
        exists s5. split; [exact E5|]. split; [exact J5|].
        assert (weight s4 = 1 + W b + wt (s_tab s3) (contents t1)).
        { unfold weight. simpl. rewrite (wt_perm _ _ _ P2). simpl. unfold wnode. simpl. rewrite ET. reflexivity. }
        lia.
      + apply Nat.eqb_neq in EL. assert (NL1 : nleft x = 1) by tauto.
        match goal with |- exists s', expand ?s0 _ _ = _ /\ _ => set (s4 := s0) end.
        assert (J4 : J (fun p => mem p b) (Tree_Model.fresh x) true s4).
        { constructor; simpl; auto.
          - intros y Hy. apply (j_low _ _ _ _ J3). auto.
          - intros y Hy. apply (j_node _ _ _ _ J3). auto.
          - apply (j_best _ _ _ _ J3).
          - intros p Hp. destruct (j_cover _ _ _ _ J3 p Hp) as [[]|(y & Hy & K1 & K2)].
            apply (Permutation_in y PE) in Hy as [KY|Hy].
            + rewrite <- KY in *. destruct K2 as (a' & b' & E' & K2). rewrite ET in E'. injection E' as <- <-.
              destruct K2 as [[K2 _]|K2]; [lia|left; exact K2].
            + right. exists y. auto. }
        destruct (expand_ok _ s4 (ndepth x + 1) b J4) as (s5 & E5 & J5 & W5 & _); [lia|lia|].
        exists s5. split; [exact E5|]. split; [exact J5|].
        assert (weight s4 = wt (s_tab s3) (contents t1)) by reflexivity.
        lia.
  Qed.

  Lemma loop_ok fuel : forall s, J none false false s -> weight s <= fuel ->
    exists s', loop fuel s = Ok s' /\ J none false false s' /\ tempty (s_tree s') = true.
  Proof.
    induction fuel as [|f IH]; intros s H L.
    - simpl. destruct (tempty (s_tree s)) eqn:E; [exists s; auto|].
      pose proof (weight_pos s H E). lia.
    - cbn [Sch_Model.loop]. destruct (tempty (s_tree s)) eqn:E; [exists s; auto|].
      destruct (round_ok s H E) as (s1 & -> & J1 & W1). cbn [bind]. apply IH; [auto|lia].
  Qed.

  Lemma rounds_ok k : forall s, J none false false s -> exists s', rounds k s = Ok s' /\ J none false false s'.
  Proof.
    induction k as [|k IH]; intros s H; simpl; [exists s; auto|].
    destruct (tempty (s_tree s)) eqn:E; [exists s; auto|].
    destruct (round_ok s H E) as (s1 & -> & J1 & _). cbn [bind]. auto.
  Qed.

  Lemma start_ok t b : inv b true t -> contents t = [] ->
    exists s, start R P T relax tstep inc onsol t c0 root = Ok s /\ J none false false s /\ weight s <= W root.
  Proof.
    intros I E. unfold start.
    destruct (expand_ok b (mkSt R P T t [] c0 None 0 0) 0 root) as (s & -> & J' & L & _).
    - constructor; simpl; auto.
      + rewrite E. intros x [].
      + rewrite E. intros x [].
      + intros p (_ & M & _). left. exact M.
    - lia.
    - unfold D. lia.
    - exists s. split; [reflexivity|]. split; [auto|]. unfold weight at 2 in L. simpl in L. rewrite E in L. exact L.
  Qed.

  Lemma slack_le : (inc <= slack inc)%Q /\ (0 <= slack inc)%Q.
  Proof. unfold slack. destruct (Qltb 0 inc) eqn:E; [apply Qltb_lt in E|apply Qltb_ge in E]; split; lra. Qed.

  Lemma right_when (q : P -> Prop) s p : feas p -> mem p root -> (target s p -> q p) ->
    match s_best s with
    | Some (v, x) => s_cut s = (v - inc)%Q
    | None => s_cut s = c0
    end ->
    q p \/ (c0 <= obj p)%Q \/ exists v x, s_best s = Some (v, x) /\ (v - slack inc <= obj p)%Q.
  Proof.
    intros F M K B. destruct slack_le as (L1 & L2).
    destruct (Qlt_le_dec (obj p) c0) as [C|C]; [|auto].
    destruct (s_best s) as [[v x]|] eqn:E.
    - destruct (Qlt_le_dec (obj p) (v - slack inc)) as [C2|C2]; [|right; right; eauto].
      left. apply K. unfold target. rewrite B, E. split; [auto|]. split; [auto|]. split; [auto|]. split; lra.
    - left. apply K. unfold target. rewrite B, E. auto.
  Qed.

  Lemma search_ends t b : inv b true t -> contents t = [] ->
    ends_right feas obj mem inc c0 root (4 ^ size root)
      (fun fuel => search R P T relax tstep tempty inc heur onsol tick fuel t c0 root).
  Proof.
    intros I E fuel F. destruct (start_ok t b I E) as (s1 & E1 & J1 & W1).
    destruct (loop_ok fuel s1 J1) as (s & E2 & J2 & EM); [unfold W in W1; lia|].
    exists s. unfold search. rewrite E1. cbn [bind]. split; [exact E2|].
    apply (tk_empty _ _ _ _ _ _ TK) in EM.
    pose proof (j_best _ _ _ _ J2) as JB.
    assert (K : forall p, feas p -> mem p root -> (c0 <= obj p)%Q \/ exists v x, s_best s = Some (v, x) /\ (v - slack inc <= obj p)%Q).
    { intros p Fp Mp. destruct (right_when (fun _ => False) s p Fp Mp) as [[]|K]; [|destruct (s_best s) as [[? ?]|]; tauto|exact K].
      intros Hp. destruct (j_cover _ _ _ _ J2 p Hp) as [[]|(x & Hx & _)]. rewrite EM in Hx. exact Hx. }
    unfold right_answer. destruct (s_best s) as [[v x]|].
    - destruct JB as (B1 & B2 & B3 & _). split; [auto|]. split; [auto|]. split; [auto|].
      intros p Fp Mp. destruct (K p Fp Mp) as [?|(v' & x' & EE & L)]; [auto|]. injection EE as <- <-. auto.
    - intros p Fp Mp. destruct (K p Fp Mp) as [?|(v' & x' & EE & L)]; [auto|discriminate].
  Qed.

  Lemma search_stops t b bound : inv b true t -> contents t = [] ->
    (forall t x, In x (contents t) -> (bound t <= nobj x)%Q) ->
    stops_right feas obj mem inc c0 root bound
      (fun k => stopped R P T relax tstep tempty inc heur onsol tick k t c0 root).
  Proof.
    intros I E BD k. destruct (start_ok t b I E) as (s1 & E1 & J1 & W1).
    destruct (rounds_ok k s1 J1) as (s & E2 & J2). exists s. unfold stopped. rewrite E1. cbn [bind].
    split; [exact E2|]. split.
    - intros p Fp Mp. apply (right_when (fun p => (bound (s_tree s) <= obj p)%Q)); auto.
      + intros Hp. destruct (j_cover _ _ _ _ J2 p Hp) as [[]|(x & Hx & L & _)].
        specialize (BD _ _ Hx). lra.
      + pose proof (j_best _ _ _ _ J2) as JB. destruct (s_best s) as [[? ?]|]; tauto.
    - intros v x EE. pose proof (j_best _ _ _ _ J2) as JB. rewrite EE in JB. tauto.
  Qed.
End Generic.

(** ** The trees *)
Lemma heap_best_all sel c h : h <> [] -> (forall x, In x h -> (nobj x < c)%Q) ->
  exists x h', heap_best sel c h = (Some x, h', []) /\ Permutation h (x :: h').
Proof.
  intros N L. unfold heap_best. destruct h as [|a h]; [congruence|]. cbn [length heap_best_fuel].
  destruct (heap_take sel (a :: h)) as [[x h']|] eqn:E.
  - pose proof (heap_take_perm _ _ _ _ E) as PE.
    assert (I : In x (a :: h)) by (eapply Permutation_in; [symmetry; exact PE|left; reflexivity]).
    specialize (L x I). assert (Q : Qle_bool c (nobj x) = false).
    { destruct (Qle_bool c (nobj x)) eqn:Q; [apply Qle_bool_iff in Q; lra|reflexivity]. }
    rewrite Q. eauto.
  - apply heap_take_none in E. discriminate.
Qed.
Lemma heap_clean_all c h : exists h' d, heap_clean c h = (h', d) /\ Permutation h (d ++ h') /\
  Forall (fun x => (c <= nobj x)%Q) d /\ (forall x, In x h' -> (nobj x < c)%Q).
Proof.
  destruct (heap_clean c h) as [h' d] eqn:E. exists h', d. split; [reflexivity|].
  destruct (heap_clean_spec _ _ _ _ E) as (A & B). split; [auto|]. split; [auto|].
  intros x Hx. unfold heap_clean in E. injection E as <- <-. apply filter_In in Hx as (_ & Hx).
  apply negb_true_iff in Hx. destruct (Qlt_le_dec (nobj x) c) as [?|K]; [auto|].
  apply Qle_bool_iff in K. congruence.
Qed.

Definition any_mode (_ : mode) : Prop := True.

Lemma heap_tree_ok sel D : tree_ok (heap_step sel) heap_empty (fun h => h) (fun _ _ _ => True) (dok_of D) any_mode.
Proof.
  constructor; auto.
  - intros b t x _ _ _. eexists. split; [reflexivity|]. auto.
  - intros b t x _ _ _. eexists. split; [reflexivity|]. auto.
  - intros t c _ N L. destruct (heap_best_all sel c t N L) as (x & h' & E & PE).
    exists h', x. cbn [heap_step]. rewrite E. auto.
  - intros b n t c _. destruct (heap_clean_all c t) as (h' & d & E & A & B & C).
    exists h', d. cbn [heap_step]. rewrite E. auto.
  - intros b n t m _ _. eexists. split; [reflexivity|]. auto.
  - intros t. unfold heap_empty. destruct t; split; congruence.
Qed.

Definition diver_ok (_ n : bool) (t : diver) : Prop := d_clean t = false /\ (n = true -> d_next t = None).
Lemma diver_tree_ok sel D : tree_ok (diver_step sel) diver_empty diver_contents diver_ok (dok_of D) any_mode.
Proof.
  constructor.
  - intros b n t (A & B). split; [auto|discriminate].
  - intros b [h cl nx sp] x (A & B) F _. simpl in *. subst cl. rewrite (B eq_refl) in *.
    unfold diver_push; simpl. rewrite F. simpl. eexists. split; [reflexivity|]. split; [reflexivity|].
    split; [auto|discriminate].
  - intros n [h cl nx sp] x (A & B) F _. simpl in *. subst cl.
    unfold diver_push; simpl. rewrite F. simpl. eexists. split; [reflexivity|]. split; [|split; auto].
    unfold diver_contents; simpl. symmetry. apply Permutation_middle.
  - intros [h cl nx sp] c (A & _) N L. simpl in *. subst cl. unfold diver_best, diver_contents in *; simpl in *.
    destruct nx as [y|]; simpl in *.
    + assert (Y : (nobj y < c)%Q) by auto. apply Qltb_lt in Y. rewrite Y.
      destruct (sp && Qle_bool c (nguess y)).
      * unfold diver_heap_best; simpl. destruct (heap_best_all sel c (y :: h)) as (x & h' & E & PE); [discriminate|auto|].
        rewrite E. exists (mkDiver h' false None sp), x. split; [reflexivity|]. split; [exact PE|]. split; auto.
      * exists (mkDiver h false None sp), y. split; [reflexivity|]. split; [reflexivity|]. split; auto.
    + unfold diver_heap_best; simpl. destruct (heap_best_all sel c h N L) as (x & h' & E & PE).
      rewrite E. exists (mkDiver h' false None sp), x. split; [reflexivity|]. split; [exact PE|]. split; auto.
  - intros b n [h cl nx sp] c (A & B). simpl in A, B. subst cl. cbn [diver_step].
    unfold diver_cleanTree, diver_contents. cbn [d_next d_heap d_stop].
    destruct (heap_clean_all c (opt_list nx ++ h)) as (h' & d & E & C1 & C2 & C3).
    replace (match nx with Some x => x :: h | None => h end) with (opt_list nx ++ h) by (destruct nx; reflexivity).
    rewrite E. exists (mkDiver h' false None sp), d. split; [reflexivity|]. simpl.
    split; [auto|]. split; [auto|]. split; [auto|]. split; auto.
  - intros b n t m I _. exists t. split; [reflexivity|]. split; [reflexivity|auto].
  - apply diver_empty_contents.
Qed.

Definition probed_ok (b n : bool) (t : probed) : Prop :=
  p_clean t = false /\ p_stop t = false /\
  match p_next t, p_cand t with
  | None, None => True
  | None, Some _ => b = false
  | Some x, None => if Tree_Model.fresh x then n = false else b = false
  | Some x, Some _ => Tree_Model.fresh x = false /\ n = false /\ b = false
  end.
Lemma probed_tree_ok sel cmp D :
  tree_ok (probed_step sel cmp) probed_empty probed_contents probed_ok (dok_of D) any_mode.
Proof.
  constructor.
  - intros b n [h cl nx cd sp] (A & B & C). unfold probed_ok in *; simpl in *. split; [auto|]. split; [auto|].
    destruct nx as [y|], cd as [k|]; auto; [tauto|destruct (Tree_Model.fresh y); auto].
  - intros b [h cl nx cd sp] x (A & B & C) F _. unfold probed_ok in *; simpl in *. subst cl sp.
    unfold probed_push; simpl. rewrite F.
    destruct nx as [y|], cd as [k|]; simpl.
    + destruct C as (_ & C & _). discriminate.
    + destruct (Tree_Model.fresh y) eqn:FY; [discriminate|]. eexists. split; [reflexivity|].
      unfold probed_contents; simpl. split; [perm|]. rewrite FY. auto.
    + destruct (cmp x k); simpl; eexists; (split; [reflexivity|]); unfold probed_contents; simpl.
      * split; [perm|]. split; [auto|]. split; [auto|]. subst b. destruct (Tree_Model.fresh k); auto.
      * split; [perm|]. split; [auto|]. split; [auto|]. rewrite F. auto.
    + eexists. split; [reflexivity|]. unfold probed_contents; simpl. split; [perm|]. rewrite F. auto.
  - intros n [h cl nx cd sp] x (A & B & C) F _. unfold probed_ok in *; simpl in *. subst cl sp.
    unfold probed_push; simpl. rewrite F.
    destruct nx as [y|], cd as [k|]; simpl.
    + destruct C as (_ & _ & C). discriminate.
    + destruct (Tree_Model.fresh y) eqn:FY; [|discriminate]. eexists. split; [reflexivity|].
      unfold probed_contents; simpl. split; [perm|]. rewrite F. auto.
    + discriminate.
    + eexists. split; [reflexivity|]. unfold probed_contents; simpl. split; [perm|]. rewrite F. auto.
  - intros [h cl nx cd sp] c (A & B & C) N L. simpl in *. subst cl sp.
    unfold probed_ok, probed_contents, probed_best in *; cbn [p_clean p_next p_cand p_heap p_stop] in *.
    destruct nx as [y|].
    + assert (Y : (nobj y < c)%Q) by (apply L; left; reflexivity). apply Qltb_lt in Y. rewrite Y. simpl.
      eexists _, y. split; [reflexivity|]. simpl. split; [reflexivity|]. split; [auto|]. split; [auto|].
      destruct cd as [k|]; [tauto|auto].
    + destruct cd as [k|]; simpl in *.
      * assert (Y : (nobj k < c)%Q) by (apply L; left; reflexivity). apply Qltb_lt in Y. rewrite Y. simpl.
        eexists _, k. split; [reflexivity|]. simpl. split; [reflexivity|]. auto.
      * unfold probed_heap_best; simpl. destruct (heap_best_all sel c h N L) as (x & h' & E & PE).
        rewrite E. simpl. eexists _, x. split; [reflexivity|]. simpl. split; [exact PE|]. auto.
  - intros b n [h cl nx cd sp] c (A & B & C). simpl in A, B. subst cl sp. cbn [probed_step].
    unfold probed_ok, probed_cleanTree, probed_contents. cbn [p_next p_cand p_heap p_stop]. cbv zeta.
    destruct (heap_clean_all c (opt_list cd ++ opt_list nx ++ h)) as (h' & d & E & C1 & C2 & C3).
    replace (match cd with Some x => x :: match nx with Some x0 => x0 :: h | None => h end | None => match nx with Some x0 => x0 :: h | None => h end end)
      with (opt_list cd ++ opt_list nx ++ h) by (destruct nx, cd; reflexivity).
    rewrite E. exists (mkProbed h' false None None false), d. split; [reflexivity|]. simpl.
    split; [|split; [auto|split; auto]].
    rewrite <- C1. rewrite !app_assoc. apply Permutation_app_tail. apply Permutation_app_comm.
  - intros b n t m I _. exists t. split; [reflexivity|]. split; [reflexivity|auto].
  - apply probed_empty_contents.
Qed.

(** The depth-first tree in its two early modes *)
Definition dfs_ok (md : Z) (_ _ : bool) (t : dfs) : Prop :=
  dfs_inv2 t /\ f_maxdepth t = md /\ mode_late (f_mode t) = false.
Lemma dfs_inv_of t : dfs_inv2 t -> dfs_inv t.
Proof. intros (A & B & _). split; auto. Qed.
Lemma dfs_tail_some sel t c :
  dfs_inv2 t -> f_mode t = FindSolutions -> dfs_contents t <> [] ->
  (forall x, In x (dfs_contents t) -> (nobj x < c)%Q) ->
  exists t' x d, dfs_best_tail sel t c = Ok (t', Some x, d).
Proof.
  intros I M N L.
  assert (ME : f_mode t <> Enlarge) by congruence.
  pose proof (dfs_best_tail_total sel t c I ME) as F.
  unfold dfs_best_tail in *. rewrite M in *. cbn [bind] in *.
  destruct (Z.ltb (f_nback t) (f_maxback t)); cbn [negb] in *; [|destruct F].
  destruct (dfs_loop (S (length (f_dive t))) t c) as [[t2 r]| | | | | | |] eqn:EL; cbn [bind] in *; try destruct F.
  - destruct r as [x|]; [eauto|].
    destruct (dfs_loop_spec _ _ _ _ _ (dfs_inv_of t I) EL) as (PE & I2 & M2). simpl in PE.
    destruct (f_dive t2) eqn:D2; [|destruct F]. destruct (Z.eqb (f_size t2) 0); [|destruct F].
    assert (PH : Permutation (dfs_contents t) (f_heap t2)) by (unfold dfs_contents in PE at 2; rewrite D2 in PE; exact PE).
    destruct (heap_best_all sel c (f_heap t2)) as (x & h' & E & _).
    { intros K. rewrite K in PH. apply Permutation_sym, Permutation_nil in PH. congruence. }
    { intros y Hy. apply L. eapply Permutation_in; [symmetry; exact PH|exact Hy]. }
    unfold dfs_heap_best. rewrite E. eauto.
  - (* the loop never dereferences *)
    exfalso. destruct I as (Hc & Hs & Hn & Hm & Hb & Hl & Hd).
    destruct (dfs_loop_total (S (length (f_dive t))) t c) as (t' & r & E & _); auto. congruence.
Qed.

Lemma dfs_tree_ok sel md D : (D <= md)%Z ->
  tree_ok (dfs_step sel) dfs_empty dfs_contents (dfs_ok md) (dok_of D) early.
Proof.
  intros DM.
  assert (PUSH : forall b n b' n' t x, dfs_ok md b n t -> dok_of D (ndepth x) ->
    exists t', dfs_step sel t (Push x) = Ok (t', EvPush x) /\ Permutation (dfs_contents t') (x :: dfs_contents t) /\
      dfs_ok md b' n' t').
  { intros b n b' n' t x (I & MD & ML) DO.
    pose proof (dfs_step_total sel md t (Push x) (conj I MD) Logic.I) as F.
    assert (DO' : depth_ok md (Push x)) by (unfold dok_of in DO; simpl; lia). specialize (F DO').
    destruct (dfs_step sel t (Push x)) as [[t' e]| | | | | | |] eqn:E; simpl in F; try destruct F.
    - pose proof (dfs_step_ok sel t (Push x) t' e (conj (dfs_inv_of _ I) ML) Logic.I E) as (C & (_ & ML') & _).
      cbn [dfs_step] in E. apply bind_ok in E as (t1 & _ & E). injection E as <- <-.
      exists t1. split; [reflexivity|]. simpl in H, H0. split; [|split; auto].
      unfold conserves in C. simpl in C. rewrite Permutation_app_comm in C. symmetry. exact C.
    - cbn [dfs_step] in E. unfold dfs_push in E. destruct I as (Hc & _). rewrite Hc, ML in E. discriminate. }
  constructor.
  - intros b n t H. exact H.
  - intros b t x I F DO. eauto.
  - intros n t x I F DO. eauto.
  - intros t c (I & MD & ML) N L.
    pose proof (dfs_step_total sel md t (Best c) (conj I MD) Logic.I Logic.I) as F.
    assert (K : exists t' x d, dfs_best sel t c = Ok (t', Some x, d)).
    { unfold dfs_best. pose proof I as (Hc & Hs & Hn & Hm & Hb & Hl & Hd). rewrite Hc.
      destruct (f_mode t) eqn:M; try discriminate ML.
      - destruct (Z.eqb (f_size t) 0) eqn:Z0.
        + apply dfs_tail_some; auto. split; simpl; [auto|]. splits; auto; discriminate.
        + destruct (rev (f_dive t)) as [|x rdv] eqn:RV.
          { exfalso. assert (f_dive t = []) as DD by (rewrite <- (rev_involutive (f_dive t)), RV; reflexivity).
            rewrite DD in Hs. simpl in Hs. apply Z.eqb_neq in Z0. lia. }
          destruct (Z.ltb (f_maxbfs t) (ndepth x)); [|eauto].
          destruct (dfs_setMode_inv2 t FindSolutions I) as (I1 & D1 & M1).
          destruct (dfs_setMode_spec t FindSolutions (dfs_inv_of _ I)) as (P1 & _ & _).
          apply dfs_tail_some; auto.
          * intros KK. rewrite KK in P1. apply Permutation_sym, Permutation_nil in P1. congruence.
          * intros y Hy. apply L. eapply Permutation_in; [symmetry; exact P1|exact Hy].
      - apply dfs_tail_some; auto. }
    destruct K as (t' & x & d & K).
    assert (E : dfs_step sel t (Best c) = Ok (t', EvBest c (Some x) d)) by (cbn [dfs_step]; rewrite K; reflexivity).
    rewrite E in F. simpl in F.
    pose proof (dfs_step_ok sel t (Best c) t' _ (conj (dfs_inv_of _ I) ML) Logic.I E) as (C & (_ & ML') & DJ).
    unfold conserves in C. simpl in C, DJ.
    assert (D0 : d = []).
    { destruct d as [|y d]; [reflexivity|]. exfalso. inversion DJ; subst.
      assert (IY : In y (dfs_contents t)).
      { rewrite app_nil_r in C. eapply Permutation_in; [symmetry; exact C|]. right. left. reflexivity. }
      specialize (L y IY). lra. }
    subst d. exists t', x. split; [exact E|]. simpl in C. rewrite app_nil_r in C. split; [exact C|].
    destruct F. split; auto.
  - intros b n t c (I & MD & ML).
    pose proof (dfs_step_total sel md t (Clean c) (conj I MD) Logic.I Logic.I) as F.
    destruct (dfs_step sel t (Clean c)) as [[t' e]| | | | | | |] eqn:E; simpl in F; try destruct F.
    + pose proof (dfs_step_ok sel t (Clean c) t' e (conj (dfs_inv_of _ I) ML) Logic.I E) as (C & (_ & ML') & DJ).
      cbn [dfs_step] in E. unfold dfs_cleanTree in E. cbv zeta in E.
      destruct (heap_clean_all c (f_heap (dfs_pushDive t))) as (h' & d & EH & C1 & C2 & C3).
      rewrite EH in E. injection E as <- <-. simpl in H, H0.
      eexists _, d. split; [reflexivity|]. unfold conserves in C. simpl in C. rewrite !app_nil_r in C.
      split; [exact C|]. split; [exact C2|]. split; [|split; auto].
      intros y Hy. apply C3. unfold dfs_contents in Hy. simpl in Hy. exact Hy.
    + cbn [dfs_step] in E. destruct (dfs_cleanTree t c). discriminate.
  - intros b n t m (I & MD & ML) EM. exists (dfs_setMode t m). split; [reflexivity|].
    destruct (dfs_setMode_spec t m (dfs_inv_of _ I)) as (P1 & _ & _).
    destruct (dfs_setMode_inv2 t m I) as (I1 & D1 & M1).
    split; [symmetry; exact P1|]. split; [auto|]. split; [congruence|]. rewrite M1. destruct m; simpl in *; tauto.
  - apply dfs_empty_contents.
Qed.

(** ** The strategies *)
Lemma forall_none {T} (t : T) n (mok : mode -> Prop) : Forall mok (no_modes t n).
Proof. constructor. Qed.
Lemma forall_any l : Forall any_mode l.
Proof. apply Forall_forall. intros. exact Logic.I. Qed.

Section Strat.
  Variables (R P : Type) (feas : P -> Prop) (obj : P -> Q) (mem : P -> R -> Prop).
  Variables (relax : nat -> R -> answer R P) (heur : nat -> option (Q * P)) (size : R -> nat) (inc c0 : Q) (root : R).
  Hypothesis RS : relax_sound R P feas obj mem relax.
  Hypothesis SH : relax_shrinks R P relax size.
  Hypothesis HS : heur_sound P feas obj heur.

  Lemma heap_search sel : ends_right feas obj mem inc c0 root (4 ^ size root)
    (fun fuel => search R P (list node) relax (heap_step sel) heap_empty inc heur no_modes no_modes fuel [] c0 root).
  Proof.
    eapply search_ends with (b := true); eauto using heap_tree_ok; try (intros; apply forall_none); simpl; auto.
  Qed.
  Lemma diver_search sel stop : ends_right feas obj mem inc c0 root (4 ^ size root)
    (fun fuel => search R P diver relax (diver_step sel) diver_empty inc heur no_modes no_modes fuel (diver_init stop) c0 root).
  Proof.
    eapply search_ends with (b := true); eauto using diver_tree_ok; try (intros; apply forall_none).
    split; auto.
  Qed.
  Lemma probed_search sel cmp : ends_right feas obj mem inc c0 root (4 ^ size root)
    (fun fuel => search R P probed relax (probed_step sel cmp) probed_empty inc heur no_modes no_modes fuel (probed_init false) c0 root).
  Proof.
    eapply search_ends with (b := true); eauto using probed_tree_ok; try (intros; apply forall_none).
    repeat split; auto.
  Qed.
  Lemma dfs_init_ok mb md : (1 <= mb)%Z -> dfs_ok md true true (dfs_init mb md).
  Proof. intros H. split; [|split; auto]. unfold dfs_inv2. simpl. repeat split; auto; try lia; intros x []. Qed.
  Lemma dfs_search sel mb md onsol tick : (1 <= mb)%Z -> (Z.of_nat (size root) <= md)%Z ->
    (forall t n, Forall early (onsol t n)) -> (forall t n, Forall early (tick t n)) ->
    ends_right feas obj mem inc c0 root (4 ^ size root)
    (fun fuel => search R P dfs relax (dfs_step sel) dfs_empty inc heur onsol tick fuel (dfs_init mb md) c0 root).
  Proof.
    intros H1 H2 H3 H4.
    eapply search_ends with (b := true) (inv := dfs_ok md); eauto.
    - apply dfs_tree_ok. exact H2.
    - apply dfs_init_ok. exact H1.
    - reflexivity.
  Qed.

  Lemma ends_answer {T} (run : nat -> outcome (st R P T)) n : ends_right feas obj mem inc c0 root n run ->
    forall fuel, n <= fuel -> exists best, answer_of R P (run fuel) = Ok best /\ right_answer R P feas obj mem inc c0 root best.
  Proof.
    intros H fuel L. destruct (H fuel L) as (s & E & A). exists (s_best s). unfold answer_of. rewrite E. auto.
  Qed.
  Lemma strategy_ends g : sound_strategy (size root) g -> forall fuel, 4 ^ size root <= fuel ->
    exists best, run_strategy R P relax inc heur c0 root g fuel = Ok best /\ right_answer R P feas obj mem inc c0 root best.
  Proof.
    destruct g as [sel|sel stop|sel cmp stop|sel mb md|sel mb md]; simpl; intros A fuel L.
    - exact (ends_answer _ _ (heap_search sel) fuel L).
    - exact (ends_answer _ _ (diver_search sel stop) fuel L).
    - subst stop. exact (ends_answer _ _ (probed_search sel cmp) fuel L).
    - destruct A as (A1 & A2).
      exact (ends_answer _ _ (dfs_search sel mb md no_modes no_modes A1 A2 (fun t n => forall_none t n _) (fun t n => forall_none t n _)) fuel L).
    - destruct A.
  Qed.

  Lemma slack_nonneg : (0 <= slack inc)%Q.
  Proof. unfold slack. destruct (Qltb 0 inc) eqn:E; [apply Qltb_lt in E|]; lra. Qed.
  Lemma answers_agree a b : (forall p, feas p -> mem p root) ->
    right_answer R P feas obj mem inc c0 root a -> right_answer R P feas obj mem inc c0 root b -> same_answer inc a b.
  Proof.
    intros M A B. destruct a as [[v x]|], b as [[w y]|]; simpl in *; auto.
    - destruct A as (A1 & A2 & A3 & A4), B as (B1 & B2 & B3 & B4).
      split; [destruct (A4 y B1 (M y B1))|destruct (B4 x A1 (M x A1))]; lra.
    - destruct A as (A1 & A2 & A3 & A4). specialize (B x A1 (M x A1)). lra.
    - destruct B as (B1 & B2 & B3 & B4). specialize (A y B1 (M y B1)). lra.
  Qed.

  (** Bounds when stopped *)
  Lemma diver_bound_le t x : In x (diver_contents t) -> (diver_bound t <= nobj x)%Q.
  Proof.
    unfold diver_contents, diver_bound. intros H.
    destruct (min_obj_spec (match d_next t with Some x => nobj x | None => big end) (d_heap t)) as (A & B & _).
    apply in_app_or in H as [H|H]; [|auto]. destruct (d_next t); simpl in H; [|tauto]. destruct H as [<-|[]]. exact A.
  Qed.
  Lemma probed_bound_le t x : In x (probed_contents t) -> (probed_bound t <= nobj x)%Q.
  Proof. apply (proj1 (probed_bound_contents t)). Qed.
  Lemma dfs_bound_le dblmax t x : In x (dfs_contents t) -> (dfs_bound dblmax t <= nobj x)%Q.
  Proof.
    unfold dfs_contents, dfs_bound. intros H.
    destruct (min_obj_spec (match f_heap t with [] => dblmax | _ => min_obj big (f_heap t) end) (f_dive t)) as (A & B & _).
    apply in_app_or in H as [H|H]; [auto|].
    destruct (min_obj_spec big (f_heap t)) as (_ & C & _). specialize (C x H).
    destruct (f_heap t); [destruct H|]. lra.
  Qed.
  Lemma diver_stops sel stop : stops_right feas obj mem inc c0 root diver_bound
    (fun k => stopped R P diver relax (diver_step sel) diver_empty inc heur no_modes no_modes k (diver_init stop) c0 root).
  Proof.
    eapply search_stops with (b := true); eauto using diver_tree_ok, diver_bound_le; try (intros; apply forall_none).
    split; auto.
  Qed.
  Lemma heap_stops sel : stops_right feas obj mem inc c0 root heap_bound
    (fun k => stopped R P (list node) relax (heap_step sel) heap_empty inc heur no_modes no_modes k [] c0 root).
  Proof.
    eapply search_stops with (b := true); eauto using heap_tree_ok; try (intros; apply forall_none); try exact Logic.I.
    intros t x H. unfold heap_bound. destruct (min_obj_spec big t) as (_ & C & _). auto.
  Qed.
  Lemma probed_stops sel cmp : stops_right feas obj mem inc c0 root probed_bound
    (fun k => stopped R P probed relax (probed_step sel cmp) probed_empty inc heur no_modes no_modes k (probed_init false) c0 root).
  Proof.
    eapply search_stops with (b := true); eauto using probed_tree_ok, probed_bound_le; try (intros; apply forall_none).
    repeat split; auto.
  Qed.
  Lemma dfs_stops sel mb md dblmax : (1 <= mb)%Z -> (Z.of_nat (size root) <= md)%Z ->
    stops_right feas obj mem inc c0 root (dfs_bound dblmax)
    (fun k => stopped R P dfs relax (dfs_step sel) dfs_empty inc heur no_modes no_modes k (dfs_init mb md) c0 root).
  Proof.
    intros H1 H2. eapply search_stops with (b := true) (inv := dfs_ok md); eauto using dfs_bound_le; try (intros; apply forall_none).
    - apply dfs_tree_ok. exact H2.
    - apply dfs_init_ok. exact H1.
    - reflexivity.
  Qed.

  (** Incumbents, for any tree *)
  Section AnyTree.
    Variables (T : Type) (tstep : T -> op -> outcome (T * event)) (tempty : T -> bool) (onsol tick : T -> nat -> list mode).
    Notation round := (round R P T relax tstep tempty inc heur onsol tick).
    Notation rounds := (rounds R P T relax tstep tempty inc heur onsol tick).
    Definition good (s : st R P T) : Prop :=
      match s_best s with
      | Some (v, x) => feas x /\ (obj x == v)%Q /\ s_cut s = (v - inc)%Q
      | None => True
      end.
    Definition later (s s' : st R P T) : Prop :=
      s_nsol s <= s_nsol s' /\
      (s_nsol s' = s_nsol s -> s_best s' = s_best s) /\
      (s_nsol s < s_nsol s' -> exists w y, s_best s' = Some (w, y) /\
         forall v x, s_best s = Some (v, x) -> (w < v)%Q /\ (w < v - inc)%Q).
    Lemma later_same s s' : s_nsol s' = s_nsol s -> s_best s' = s_best s -> later s s'.
    Proof. intros A B. split; [lia|]. split; [auto|lia]. Qed.
    Lemma later_trans a b c : later a b -> later b c -> later a c.
    Proof.
      intros (A1 & A2 & A3) (B1 & B2 & B3). split; [lia|]. split.
      - intros E. rewrite B2, A2 by lia. reflexivity.
      - intros L. destruct (Nat.eq_dec (s_nsol c) (s_nsol b)) as [E|E].
        + rewrite (B2 E). apply A3. lia.
        + destruct B3 as (w & y & EB & KB); [lia|]. exists w, y. split; [exact EB|].
          intros v x EA. destruct (Nat.eq_dec (s_nsol b) (s_nsol a)) as [E2|E2].
          * rewrite <- (A2 E2) in EA. exact (KB _ _ EA).
          * destruct A3 as (w2 & y2 & EB2 & KA); [lia|]. destruct (KB _ _ EB2). destruct (KA _ _ EA). split; lra.
    Qed.
    Lemma offer_later s v x s' : good s -> feas x -> (obj x == v)%Q ->
      offer R P T tstep inc onsol s v x = Ok s' -> good s' /\ later s s'.
    Proof.
      intros G F O H. unfold offer in H. destruct (accepts R P T s v) eqn:A.
      - apply bind_ok in H as ([t1 e] & _ & H). apply bind_ok in H as (t2 & _ & H). injection H as <-.
        split; [unfold good; simpl; auto|]. unfold later; simpl. split; [lia|]. split; [lia|]. intros _.
        exists v, x. split; [reflexivity|]. intros w y E. unfold good in G. rewrite E in G.
        destruct G as (_ & _ & G). unfold accepts in A. rewrite E, G in A. apply andb_true_iff in A as (A1 & A2).
        apply Qltb_lt in A1, A2. auto.
      - injection H as <-. split; [auto|apply later_same; reflexivity].
    Qed.
    Lemma expand_later s d r s' : good s -> expand R P T relax tstep inc onsol s d r = Ok s' -> good s' /\ later s s'.
    Proof.
      intros G H. unfold expand in H. pose proof (RS (s_round s) r) as RR. destruct (relax (s_round s) r).
      - injection H as <-. split; [auto|apply later_same; reflexivity].
      - destruct RR as (R1 & R2 & _). eapply offer_later; eauto.
      - destruct (Qltb v (s_cut s)).
        + apply bind_ok in H as ([t1 e] & _ & H). injection H as <-. split; [exact G|apply later_same; reflexivity].
        + injection H as <-. split; [auto|apply later_same; reflexivity].
    Qed.
    Lemma round_later s s' : good s -> round s = Ok s' -> good s' /\ later s s'.
    Proof.
      intros G H. unfold Sch_Model.round in H. cbv zeta in H.
      apply bind_ok in H as (t0 & _ & H). apply bind_ok in H as (s1 & H1 & H).
      assert (K : good s1 /\ later s s1).
      { cbn [with_tree s_round] in H1. destruct (heur (S (s_round s))) as [[v x]|] eqn:EH.
        - destruct (HS _ _ _ EH) as (F & O). apply offer_later in H1; auto.
        - injection H1 as <-. split; [exact G|apply later_same; reflexivity]. }
      destruct K as (G1 & L1).
      destruct (tempty (s_tree s1)). { injection H as <-. auto. }
      apply bind_ok in H as ([t1 e] & _ & H).
      assert (K : forall s2, good (with_tree R P T s1 t1) -> good s2 /\ later (with_tree R P T s1 t1) s2 -> good s2 /\ later s s2).
      { intros s2 _ (A & B). split; [auto|]. eapply later_trans; [exact L1|exact B]. }
      assert (G2 : good (with_tree R P T s1 t1)) by exact G1.
      apply K; [exact G2|].
      destruct e as [?|?|?|cc [n|] dd|? ?|]; try (injection H as <-; split; [exact G2|apply later_same; reflexivity]).
      destruct (Qltb (s_cut (with_tree R P T s1 t1)) (nobj n)). { injection H as <-. split; [exact G2|apply later_same; reflexivity]. }
      destruct (nth_error (s_tab (with_tree R P T s1 t1)) (nid n)) as [[a b]|]; [|discriminate].
      destruct (Nat.eqb (nleft n) 2).
      - apply bind_ok in H as ([t2 e2] & _ & H). apply expand_later in H as (A & B); auto.
      - eapply expand_later; eauto.
    Qed.
    Lemma rounds_later k : forall s s', good s -> rounds k s = Ok s' -> good s' /\ later s s'.
    Proof.
      induction k as [|k IH]; intros s s' G H; simpl in H.
      - injection H as <-. split; [auto|apply later_same; reflexivity].
      - destruct (tempty (s_tree s)). { injection H as <-. split; [auto|apply later_same; reflexivity]. }
        apply bind_ok in H as (s1 & H1 & H). apply round_later in H1 as (G1 & L1); [|auto].
        apply IH in H as (G2 & L2); [|auto]. split; [auto|]. eapply later_trans; eauto.
    Qed.
    Lemma rounds_add j k : forall s, rounds (k + j) s = (do s1 <- rounds k s; rounds j s1).
    Proof.
      induction k as [|k IH]; intros s; simpl.
      - reflexivity.
      - destruct (tempty (s_tree s)) eqn:E.
        + cbn [bind]. destruct j; simpl; [reflexivity|]. rewrite E. reflexivity.
        + destruct (round s); simpl; auto.
    Qed.
    Lemma stopped_later k j t s1 s2 :
      stopped R P T relax tstep tempty inc heur onsol tick k t c0 root = Ok s1 ->
      stopped R P T relax tstep tempty inc heur onsol tick (k + j) t c0 root = Ok s2 ->
      good s1 /\ good s2 /\ later s1 s2.
    Proof.
      unfold stopped. intros H1 H2. apply bind_ok in H1 as (s & E & H1). rewrite E in H2. cbn [bind] in H2.
      assert (G : good s) by (eapply expand_later; [|exact E]; exact Logic.I).
      rewrite rounds_add, H1 in H2. cbn [bind] in H2.
      apply rounds_later in H1 as (G1 & _); [|exact G]. apply rounds_later in H2 as (G2 & L); [|exact G1]. auto.
    Qed.
  End AnyTree.
End Strat.

(** ** A small problem: the feasible points are 0 and 12 .. 50, the objective is the point itself.  Two levels with one
    empty branch each, then the points from 12 on against the point 0. *)
Definition ex_feas (p : Z) : Prop := p = 0%Z \/ (12 <= p <= 50)%Z.
Definition ex_obj (p : Z) : Q := inject_Z p.
Definition ex_mem (p : Z) (r : nat) : Prop :=
  match r with 0 | 1 | 2 => True | 3 | 4 => (12 <= p)%Z | 5 => p = 0%Z | _ => False end.
Definition ex_relax (g : Q) (k r : nat) : answer nat Z :=
  match r with
  | 0 => RSplit (-1)%Q g 6 1
  | 1 => RSplit (-1)%Q g 6 2
  | 2 => RSplit (-1)%Q g 3 5
  | 3 => RSplit 12%Q g 4 6
  | 4 => RInt 12%Q 12%Z
  | 5 => RInt 0%Q 0%Z
  | _ => RInf
  end.
Definition ex_size (r : nat) : nat := match r with 0 => 4 | 1 => 3 | 2 => 2 | 3 => 1 | _ => 0 end.
(** A heuristic that finds 50, 49, 48, 47 before the first four rounds and 46 before the sixth *)
Definition ex_heur (k : nat) : option (Q * Z) :=
  match k with
  | 1 => Some (50%Q, 50%Z) | 2 => Some (49%Q, 49%Z) | 3 => Some (48%Q, 48%Z) | 4 => Some (47%Q, 47%Z)
  | 6 => Some (46%Q, 46%Z)
  | _ => None
  end.
Lemma inj_le a b : (a <= b)%Z -> (inject_Z a <= inject_Z b)%Q.
Proof. intros H. rewrite <- Zle_Qle. exact H. Qed.
Lemma ex_relax_sound g : relax_sound nat Z ex_feas ex_obj ex_mem (ex_relax g).
Proof.
  intros k r. unfold ex_feas, ex_obj.
  assert (B : forall p, p = 0%Z \/ (12 <= p <= 50)%Z -> (-1 <= inject_Z p)%Q).
  { intros p H. change (-1)%Q with (inject_Z (-1)). apply inj_le. lia. }
  destruct r as [|[|[|[|[|[|[|r]]]]]]]; simpl.
  - intros p F _. auto.
  - intros p F _. auto.
  - intros p F _. split; [auto|]. destruct F as [F|F]; [right; exact F|left; lia].
  - intros p F M. split; [|left; exact M]. change 12%Q with (inject_Z 12). apply inj_le. exact M.
  - split; [right; lia|]. split; [reflexivity|]. intros p F M. change 12%Q with (inject_Z 12). apply inj_le. exact M.
  - split; [left; reflexivity|]. split; [reflexivity|]. intros p F ->. apply Qle_refl.
  - intros p _ M. exact M.
  - intros p _ M. exact M.
Qed.
Lemma ex_shrinks g : relax_shrinks nat Z (ex_relax g) ex_size.
Proof.
  intros k r v g' a b H. destruct r as [|[|[|[|[|[|[|r]]]]]]]; simpl in H; try discriminate; injection H as <- <- <- <-;
  simpl; lia.
Qed.
Lemma ex_heur_sound : heur_sound Z ex_feas ex_obj ex_heur.
Proof.
  intros k v x H. unfold ex_feas, ex_obj.
  destruct k as [|[|[|[|[|[|[|k]]]]]]]; simpl in H; try discriminate; injection H as <- <-; (split; [right; lia|reflexivity]).
Qed.

(** The heap under the best-bound comparison *)
Fixpoint lowest_from (k best : nat) (b : Q) (h : list node) : nat :=
  match h with
  | [] => best
  | x :: h' => if Qltb (nobj x) b then lowest_from (S k) k (nobj x) h' else lowest_from (S k) best b h'
  end.
Definition lowest (h : list node) : nat := match h with [] => 0 | x :: h' => lowest_from 1 0 (nobj x) h' end.

Lemma dynamic_loses : run_strategy nat Z (ex_relax 0) 0 ex_heur 100 0 (DynamicS lowest 5 1000) 256 = Ok (Some (12%Q, 12%Z)).
Proof. vm_compute. reflexivity. Qed.
Lemma C299_full_false : ~ C299_full.
Proof.
  intros H.
  destruct (H nat Z ex_feas ex_obj ex_mem (ex_relax 0) ex_heur ex_size 0%Q 100%Q 0 (DynamicS lowest 5 1000)
              (ex_relax_sound 0) (ex_shrinks 0) ex_heur_sound) with (fuel := 256) as (best & E & A).
  - simpl. lia.
  - simpl. lia.
  - rewrite dynamic_loses in E. injection E as <-. destruct A as (_ & _ & _ & A).
    destruct (A 0%Z (or_introl eq_refl) Logic.I) as [K|K]; vm_compute in K; apply K; reflexivity.
Qed.
Lemma C298_full_false : ~ C298_full.
Proof.
  intros H.
  destruct (H nat Z ex_feas ex_obj ex_mem (ex_relax 1000) (fun _ => None) ex_size 0%Q 100%Q 0 lowest cmp0 true
              (ex_relax_sound 1000) (ex_shrinks 1000)) with (fuel := 256) as (best & E & _).
  - intros k v x K. discriminate.
  - simpl. lia.
  - vm_compute in E. discriminate.
Qed.
Lemma C301_full_false : ~ C301_full.
Proof.
  intros H.
  destruct (stopped nat Z dfs (ex_relax 0) (dfs_step lowest) dfs_empty 0 ex_heur dyn_onsol dyn_tick 6 (dfs_init 5 1000) 100 0)
    as [s| | | | | | |] eqn:E; vm_compute in E; try discriminate.
  specialize (H nat Z ex_feas ex_obj ex_mem (ex_relax 0) ex_heur ex_size 0%Q 100%Q 0 lowest 5%Z 1000%Z 1000%Q true
     (ex_relax_sound 0) (ex_shrinks 0) ex_heur_sound ltac:(lia) ltac:(simpl; lia) 6 s).
  assert (E' : stopped nat Z dfs (ex_relax 0) (dfs_step lowest) dfs_empty 0 ex_heur dyn_onsol dyn_tick 6 (dfs_init 5 1000) 100 0 = Ok s)
    by (rewrite <- E; vm_compute; reflexivity).
  specialize (H E' 0%Z (or_introl eq_refl) Logic.I). injection E as <-.
  destruct H as [K|[K|(v & x & K1 & K2)]].
  - vm_compute in K. apply K; reflexivity.
  - vm_compute in K. apply K; reflexivity.
  - simpl in K1. injection K1 as <- <-. vm_compute in K2. apply K2; reflexivity.
Qed.
Lemma later_improves {R P T} inc (s s' : st R P T) : later R P inc T s s' -> improves inc s s'.
Proof.
  intros (A & B & C). destruct (Nat.eq_dec (s_nsol s') (s_nsol s)) as [E|E]; [left; auto|right].
  split; [lia|]. apply C. lia.
Qed.
