(** Proofs for the information objects. *)
From Verif Require Import Base Arr Nlp Oad_Model Sec_Model Sec_Spec.
#[local] Open Scope Q_scope.

Ltac inv H := inversion H; subst; clear H.
Ltac bnd H v E := apply bind_ok in H; destruct H as (v & E & H); try discriminate.
Lemma rd_ok : forall A i (l : list A) v, rd i l = Ok v -> nth_error l i = Some v.
Proof. intros A i l v H. unfold rd in H. destruct (nth_error l i); congruence. Qed.
Lemma lset_eq : forall A i (v : A) l l', lset i v l = Ok l' -> (i < length l)%nat /\ l' = firstn i l ++ v :: skipn (S i) l.
Proof.
  intros A i v l l' H. destruct (Nat.lt_ge_cases i (length l)) as [L|G].
  - rewrite lset_ok in H by auto. inv H. auto.
  - unfold lset in H. rewrite (proj2 (Nat.ltb_ge i (length l)) G) in H. discriminate H.
Qed.
Lemma upd_nth_error : forall A i (v : A) l j, (i < length l)%nat -> nth_error (firstn i l ++ v :: skipn (S i) l) j = if Nat.eqb j i then Some v else nth_error l j.
Proof.
  intros A i v l. revert i. induction l as [|a l IH]; intros i j L; cbn in L; [lia|]. destruct i as [|i]; cbn.
  - destruct j; reflexivity.
  - destruct j as [|j]; cbn; auto. rewrite IH by lia. reflexivity.
Qed.
Lemma upd_len : forall A i (v : A) l, (i < length l)%nat -> length (firstn i l ++ v :: skipn (S i) l) = length l.
Proof. intros. rewrite app_length. cbn [length]. rewrite firstn_length, skipn_length. lia. Qed.
Lemma map_upd : forall A B (f : A -> B) i v l, map f (firstn i l ++ v :: skipn (S i) l) = firstn i (map f l) ++ f v :: skipn (S i) (map f l).
Proof. intros. rewrite map_app. cbn [map]. rewrite firstn_map, skipn_map. reflexivity. Qed.
Lemma upd_same : forall A i (v : A) l, nth_error l i = Some v -> firstn i l ++ v :: skipn (S i) l = l.
Proof.
  intros A i v l. revert i. induction l as [|a l IH]; intros [|i] H; cbn in *; try discriminate; [inv H; reflexivity|]. f_equal. auto.
Qed.
Lemma nth_map_some : forall A B (f : A -> B) l i v d, nth_error l i = Some v -> nth i (map f l) d = f v.
Proof. intros A B f l i v d H. apply nth_error_nth. rewrite nth_error_map, H. reflexivity. Qed.

(** ** Integrality *)
Lemma near_iff : forall v, Qltb int_tol (Qabs (v - inject_Z (nearest v))) = false <-> near_int v.
Proof.
  intros v. rewrite Qltb_ge. unfold int_tol. split; [intros H; exists (nearest v); exact H|]. intros [z H].
  assert (nearest v = z) as ->; auto. apply Qabs_Qle_condition in H. unfold nearest.
  pose proof (Qfloor_le (v + (1 # 2))) as F1. pose proof (Qlt_floor (v + (1 # 2))) as F2. set (k := Qfloor (v + (1 # 2))) in *.
  assert (inject_Z k < inject_Z (z + 1)) by (rewrite inject_Z_plus; change (inject_Z 1) with 1; lra).
  assert (inject_Z z < inject_Z (k + 1)) by lra. rewrite <- Zlt_Qlt in *. lia.
Qed.
Lemma cols_iff : forall n i ints x b, cols_integral i n ints x = Ok b ->
  (b = true <-> forall j, (i <= j < i + n)%nat -> nth_error ints j = Some true -> exists v, nth_error x j = Some v /\ near_int v).
Proof.
  induction n as [|n IH]; intros i ints x b H; cbn [cols_integral] in H.
  - inv H. split; auto. intros; lia.
  - bnd H c Ec. apply rd_ok in Ec. destruct c.
    + bnd H v Ev. apply rd_ok in Ev. destruct (Qltb int_tol (Qabs (v - inject_Z (nearest v)))) eqn:T.
      * inv H. split; [discriminate|]. intros K. destruct (K i ltac:(lia) Ec) as (w & W & N). rewrite Ev in W. inv W. apply near_iff in N. congruence.
      * apply near_iff in T. rewrite (IH _ _ _ _ H). split; intros K j J I.
        -- destruct (Nat.eq_dec j i) as [-> |N]; [eauto|apply K; auto; lia].
        -- apply K; auto; lia.
    + rewrite (IH _ _ _ _ H). split; intros K j J I; [|apply K; auto; lia].
      destruct (Nat.eq_dec j i) as [-> |N]; [congruence|apply K; auto; lia].
Qed.
Lemma counts_iff : forall v f b, integral v f = Ok b -> ((b && w_opt f)%bool = true <-> counts (v_n v) (v_ints v) f).
Proof.
  intros v f b H. unfold integral in H. unfold counts. rewrite andb_true_iff. destruct (w_infs f) as [l|].
  - inv H. rewrite forallb_forall. split; intros [A B]; (split; auto).
    + intros d D. specialize (A d D). apply negb_true_iff in A. apply Qltb_ge in A. exact A.
    + intros d D. apply negb_true_iff, Qltb_ge. apply B. exact D.
  - rewrite (cols_iff _ _ _ _ _ H). split; intros [A B]; (split; auto); intros i I J; [apply B || apply A|apply B]; auto; lia.
Qed.

(** ** Families *)
Definition fam (st : list nat) (v : solver) : option nat := match v_info v with Bon c => nth_error st c | _ => None end.
Definition dim (v : solver) : nat * list bool := (v_n v, v_ints v).
Definition as_cell (r : option (list Q * Q)) : cell := match r with None => mkCell [] PInf | Some (x, v) => mkCell x (Fin v) end.
Record rel (k : nat) (s : st) (starts : list nat) (es : list event) : Prop := mkRel {
  re_nd : NoDup starts;
  re_lt : forall o, In o starts -> (o < k)%nat;
  re_len : length (t_cells s) = length starts;
  re_in : forall v c, In v (t_solvers s) -> v_info v = Bon c -> (c < length starts)%nat;
  re_old : forall e, In e es -> In (snd (fst (fst e))) starts;
  re_best : forall c o, nth_error starts c = Some o -> exists r, best_of (of_family o es) r /\ nth_error (t_cells s) c = Some (as_cell r) }.
Lemma of_app : forall o a b, of_family o (a ++ b) = of_family o a ++ of_family o b.
Proof. intros. unfold of_family. rewrite filter_app, map_app. reflexivity. Qed.
Lemma of_none : forall o es, (forall e, In e es -> snd (fst (fst e)) <> o) -> of_family o es = [].
Proof.
  intros o es H. unfold of_family. induction es as [|e es IH]; cbn; auto. destruct (Nat.eqb_spec (snd (fst (fst e))) o) as [E|E].
  - exfalso. apply (H e); cbn; auto.
  - apply IH. intros. apply H. right. auto.
Qed.
Lemma best_snoc : forall l r x h, best_of l r -> exists r', best_of (l ++ [(x, h)]) r' /\
  as_cell r' = (if ext_ltb (Fin h) (e_v (as_cell r)) then mkCell x (Fin h) else as_cell r).
Proof.
  intros l [[y v]|] x h B; cbn [as_cell e_v] in *.
  - destruct B as (a & b & -> & A & B). cbn [ext_ltb]. destruct (Qltb h v) eqn:E.
    + apply Qltb_lt in E. exists (Some (x, h)). split; auto. exists (a ++ (y, v) :: b), []. split; auto. split; [|intros ? ? []].
      intros z w I. apply in_app_or in I. destruct I as [I|[I|I]]; [apply A in I; lra|inv I; auto|apply B in I; lra].
    + apply Qltb_ge in E. exists (Some (y, v)). split; auto. exists a, (b ++ [(x, h)]). split; [rewrite <- app_assoc; auto|]. split; auto.
      intros z w I. apply in_app_or in I. destruct I as [I|[I|[]]]; [eauto|inv I; auto].
  - cbn in B. subst l. exists (Some (x, h)). split; auto. exists [], []. split; auto. split; intros ? ? [].
Qed.
Lemma fam_app : forall st k v, (forall c, v_info v = Bon c -> (c < length st)%nat) -> fam (st ++ [k]) v = fam st v.
Proof. intros st k v H. unfold fam. destruct (v_info v); auto. apply nth_error_app1. auto. Qed.
Lemma map_fam_app : forall st k l, (forall v c, In v l -> v_info v = Bon c -> (c < length st)%nat) -> map (fam (st ++ [k])) l = map (fam st) l.
Proof. intros st k l H. apply map_ext_in. intros v I. apply fam_app. eauto. Qed.

Lemma nodup_snoc : forall A (l : list A) x, NoDup l -> ~ In x l -> NoDup (l ++ [x]).
Proof.
  induction l as [|a l IH]; intros x N I; cbn; [constructor; [intros []|constructor]|]. inv N. constructor.
  - intros K. apply in_app_or in K. destruct K as [K|[K|[]]]; [auto|]. subst. apply I. left. auto.
  - apply IH; auto. intros K. apply I. right. auto.
Qed.
(** One step other than a solve. *)
Lemma step_other : forall k o s s' starts es, (forall i f, o <> Solve i f) -> step o s = Ok s' -> rel k s starts es ->
  exists starts', rel (S k) s' starts' es /\ map (fam starts') (t_solvers s') = fam_step k o (map (fam starts) (t_solvers s)) /\
    map dim (t_solvers s') = dim_step o (map dim (t_solvers s)) /\ (exists t, starts' = starts ++ t).
Proof.
  intros k o s s' starts es N H R. destruct R as [R1 R2 R3 R4 R5 R6].
  destruct o as [n ints|i|i|i n ints|i|i f]; cbn [step] in H.
  - inv H. exists starts. split; [|split; [|split]].
    + constructor; cbn; auto; [intros o I; apply R2 in I; lia|]. intros v c I J. apply in_app_or in I. destruct I as [I|[<- |[]]]; [eauto|discriminate].
    + cbn. rewrite map_app. reflexivity.
    + cbn. rewrite map_app. reflexivity.
    + exists []. rewrite app_nil_r. auto.
  - bnd H v Ev. apply rd_ok in Ev. inv H. exists starts. split; [|split; [|split]].
    + constructor; cbn; auto; [intros o I; apply R2 in I; lia|]. intros w c I J. apply in_app_or in I.
      destruct I as [I|[<- |[]]]; [eauto|]. eapply R4; eauto. eapply nth_error_In; eauto.
    + cbn. rewrite map_app. cbn. rewrite (nth_map_some _ _ _ _ _ v) by auto. reflexivity.
    + cbn. rewrite map_app. cbn. rewrite (nth_map_some _ _ _ _ _ v) by auto. reflexivity.
    + exists []. rewrite app_nil_r. auto.
  - bnd H v Ev. apply rd_ok in Ev. bnd H l El. destruct (lset_eq _ _ _ _ _ El) as [L ->]. inv H. exists starts. split; [|split; [|split]].
    + constructor; cbn; auto; [intros o I; apply R2 in I; lia|]. intros w c I J. apply In_nth_error in I. destruct I as [j I].
      rewrite upd_nth_error in I by auto. destruct (Nat.eqb j i); [inv I; discriminate|]. eapply R4; eauto. eapply nth_error_In; eauto.
    + cbn [t_solvers]. rewrite map_upd. reflexivity.
    + cbn [t_solvers]. rewrite map_upd. cbn [dim_step]. apply upd_same. rewrite nth_error_map, Ev. reflexivity.
    + exists []. rewrite app_nil_r. auto.
  - bnd H v Ev. apply rd_ok in Ev. bnd H l El. destruct (lset_eq _ _ _ _ _ El) as [L ->]. inv H. exists starts. split; [|split; [|split]].
    + constructor; cbn; auto; [intros o I; apply R2 in I; lia|]. intros w c I J. apply In_nth_error in I. destruct I as [j I].
      rewrite upd_nth_error in I by auto. destruct (Nat.eqb j i); [|eapply R4; eauto; eapply nth_error_In; eauto].
      inv I. cbn in J. eapply R4; [eapply nth_error_In; eauto|exact J].
    + cbn [t_solvers fam_step]. rewrite map_upd. apply upd_same. rewrite nth_error_map, Ev. reflexivity.
    + cbn [t_solvers]. rewrite map_upd. reflexivity.
    + exists []. rewrite app_nil_r. auto.
  - bnd H v Ev. apply rd_ok in Ev. destruct (v_info v) as [| |c] eqn:Ei; [discriminate| |].
    + bnd H l El. destruct (lset_eq _ _ _ _ _ El) as [L ->]. inv H. exists (starts ++ [k]). split; [|split; [|split]]; [| | |eauto].
      * constructor; cbn [t_cells t_solvers].
        -- apply nodup_snoc; auto. intros I. apply R2 in I. lia.
        -- intros o I. apply in_app_or in I. destruct I as [I|[<- |[]]]; [apply R2 in I|]; lia.
        -- rewrite !app_length. cbn. lia.
        -- intros w c I J. rewrite app_length. cbn. apply in_app_or in I. destruct I as [I|[<- |[]]].
           ++ apply In_nth_error in I. destruct I as [j I]. rewrite upd_nth_error in I by auto. destruct (Nat.eqb j i); [inv I; inv J; lia|].
              assert (c < length starts)%nat; [|lia]. eapply R4; eauto. eapply nth_error_In; eauto.
           ++ inv J. lia.
        -- intros e I. apply in_or_app. auto.
        -- intros c o I. destruct (Nat.lt_ge_cases c (length starts)) as [C|C].
           ++ rewrite nth_error_app1 in I by auto. destruct (R6 c o I) as (r & B & Y). exists r. split; auto. rewrite nth_error_app1; [auto|]. rewrite R3. auto.
           ++ rewrite nth_error_app2 in I by auto. destruct (c - length starts)%nat as [|d] eqn:D; [|destruct d; discriminate]. cbn in I. inv I.
              assert (c = length (t_cells s)) as -> by lia.
              exists None. split; [|rewrite nth_error_app2, Nat.sub_diag by lia; reflexivity].
              cbn. apply of_none. intros e E X. apply R5 in E. apply R2 in E. lia.
      * cbn [t_solvers fam_step]. rewrite map_app, map_upd. rewrite (nth_map_some _ _ _ _ _ v) by auto.
        rewrite map_fam_app by auto. assert (F : fam starts v = None) by (unfold fam; rewrite Ei; reflexivity). rewrite F. cbn [map].
        assert (G : fam (starts ++ [k]) (mkSolver (Bon (length (t_cells s))) (v_n v) (v_ints v)) = Some k).
        { unfold fam. cbn [v_info]. rewrite nth_error_app2, R3, Nat.sub_diag by lia. reflexivity. }
        rewrite G. reflexivity.
      * cbn [t_solvers dim_step]. rewrite map_app, map_upd. cbn [map]. rewrite (nth_map_some _ _ _ _ _ v) by auto. f_equal. apply upd_same.
        rewrite nth_error_map, Ev. reflexivity.
    + inv H. exists starts. split; [|split; [|split]].
      * constructor; cbn; auto; [intros o I; apply R2 in I; lia|]. intros w d I J. apply in_app_or in I.
        destruct I as [I|[<- |[]]]; [eauto|]. eapply R4; eauto. eapply nth_error_In; eauto.
      * cbn [t_solvers fam_step]. rewrite (nth_map_some _ _ _ _ _ v) by auto.
        assert (C : (c < length starts)%nat) by (eapply R4; eauto; eapply nth_error_In; eauto).
        destruct (nth_error starts c) as [o|] eqn:O; [|apply nth_error_None in O; lia].
        assert (F : fam starts v = Some o) by (unfold fam; rewrite Ei; exact O). rewrite F. rewrite map_app. cbn [map]. rewrite F. f_equal. symmetry. apply upd_same.
        rewrite nth_error_map, Ev. cbn. rewrite F. reflexivity.
      * cbn. rewrite map_app. cbn. rewrite (nth_map_some _ _ _ _ _ v) by auto. reflexivity.
      * exists []. rewrite app_nil_r. auto.
  - exfalso. eapply N. reflexivity.
Qed.
(** A solve. *)
Lemma step_solve : forall k i f s s' starts es, step (Solve i f) s = Ok s' -> rel k s starts es ->
  t_solvers s' = t_solvers s /\ exists v, nth_error (t_solvers s) i = Some v /\
  ((exists o h, fam starts v = Some o /\ counts (v_n v) (v_ints v) f /\ w_second f = Some h /\ rel (S k) s' starts (es ++ [(k, o, firstn (v_n v) (w_x f), h)])) \/
   ((~ counts (v_n v) (v_ints v) f \/ fam starts v = None) /\ rel (S k) s' starts es)).
Proof.
  intros k i f s s' starts es H R. destruct R as [R1 R2 R3 R4 R5 R6]. cbn [step] in H. bnd H v Ev. apply rd_ok in Ev. bnd H l El. inv H. cbn. split; auto.
  exists v. split; auto. unfold record_solve in El. bnd El b Eb. pose proof (counts_iff v f b Eb) as C.
  assert (K : forall c, c = t_cells s -> rel (S k) (mkSt (t_solvers s) c) starts es).
  { intros c ->. constructor; cbn; auto. intros o I. apply R2 in I. lia. }
  destruct (b && w_opt f)%bool.
  - assert (Co : counts (v_n v) (v_ints v) f) by (apply C; auto). destruct (w_second f) as [h|]; [|discriminate].
    destruct (v_info v) as [| |c] eqn:Ei; [right; inv El; split; [right; unfold fam; rewrite Ei; auto|auto]..|].
    left. assert (Cl : (c < length starts)%nat) by (eapply R4; eauto; eapply nth_error_In; eauto).
    destruct (nth_error starts c) as [o|] eqn:O; [|apply nth_error_None in O; lia]. exists o, h.
    split; [unfold fam; rewrite Ei; auto|]. split; auto. split; auto.
    destruct (R6 c o O) as (r & B & Y). bnd El e Ee. apply rd_ok in Ee. rewrite Y in Ee. inv Ee.
    destruct (best_snoc _ _ (firstn (v_n v) (w_x f)) h B) as (r' & B' & A').
    assert (U : exists u, l = firstn c (t_cells s) ++ u :: skipn (S c) (t_cells s) /\ u = as_cell r').
    { destruct (ext_ltb (Fin h) (e_v (as_cell r))).
      - destruct (Nat.leb _ _); [|discriminate]. destruct (lset_eq _ _ _ _ _ El) as [_ ->]. eauto.
      - inv El. exists (as_cell r). split; auto. symmetry. apply upd_same. auto. }
    destruct U as (u & -> & ->).
    constructor; cbn [t_cells t_solvers]; auto.
    + intros o' I. apply R2 in I. lia.
    + rewrite upd_len; auto. lia.
    + intros e I. apply in_app_or in I. destruct I as [I|[<- |[]]]; auto. cbn. eapply nth_error_In; eauto.
    + intros c' o' I. rewrite of_app. unfold of_family at 2. cbn [filter fst snd]. destruct (Nat.eqb_spec o o') as [<- |N].
      * assert (c' = c) as ->. { eapply (proj1 (NoDup_nth_error starts) R1); [|congruence]. apply nth_error_Some. congruence. }
        exists r'. split; auto. rewrite upd_nth_error by lia. rewrite Nat.eqb_refl. auto.
      * cbn [map]. rewrite app_nil_r. destruct (R6 c' o' I) as (r2 & B2 & Y2). exists r2. split; auto.
        rewrite upd_nth_error by lia. destruct (Nat.eqb_spec c' c) as [-> |]; [congruence|auto].
  - right. inv El. split; auto. left. intros Co. apply C in Co. discriminate.
Qed.
Lemma is_solve : forall o, (exists i f, o = Solve i f) \/ (forall i f, o <> Solve i f).
Proof. intros []; try (right; congruence). left. eauto. Qed.
Lemma exec_rel : forall ops k s s' starts es, exec ops s = Ok s' -> rel k s starts es ->
  exists starts' es', events k ops (map (fam starts) (t_solvers s)) (map dim (t_solvers s)) es' /\ rel (k + length ops) s' starts' (es ++ es') /\
    map (fam starts') (t_solvers s') = families k ops (map (fam starts) (t_solvers s)).
Proof.
  induction ops as [|o ops IH]; intros k s s' starts es H R; cbn in H.
  - inv H. exists starts, []. split; [constructor|]. rewrite Nat.add_0_r, app_nil_r. auto.
  - bnd H s1 E1. cbn [length]. replace (k + S (length ops))%nat with (S k + length ops)%nat by lia. destruct (is_solve o) as [(i & f & ->)|N].
    + destruct (step_solve _ _ _ _ _ _ _ E1 R) as (S1 & v & V & [(o & h & F & C & W & R')|(M & R')]).
      * destruct (IH _ _ _ _ _ H R') as (st' & es' & A & B & D). rewrite S1 in A, D. exists st', ((k, o, firstn (v_n v) (w_x f), h) :: es'). split; [|split].
        -- eapply (Ev_hit k i f ops _ _ o (v_n v) (v_ints v)); auto; [rewrite nth_error_map, V; cbn; congruence|rewrite nth_error_map, V; reflexivity].
        -- rewrite <- app_assoc in B. exact B.
        -- cbn. exact D.
      * destruct (IH _ _ _ _ _ H R') as (st' & es' & A & B & D). rewrite S1 in A, D. exists st', es'. split; [|split]; auto.
        eapply (Ev_miss k i f ops _ _ (v_n v) (v_ints v)); auto; [rewrite nth_error_map, V; reflexivity|].
        destruct M as [M|M]; auto. right. rewrite nth_error_map, V. cbn. congruence.
    + destruct (step_other _ _ _ _ _ _ N E1 R) as (st1 & R' & F & D & _). destruct (IH _ _ _ _ _ H R') as (st' & es' & A & B & G).
      rewrite F, D in A. rewrite F in G. exists st', es'. split; [apply Ev_other; auto|]. auto.
Qed.
Lemma rel_init : rel 0 init [] [].
Proof. constructor; cbn; auto; try (intros; contradiction); try (intros [|c] o; discriminate). constructor. Qed.
Lemma events_fun : forall k ops l d es, events k ops l d es -> forall es', events k ops l d es' -> es' = es.
Proof.
  induction 1 as [k l d|k i f ops l d o n ints h es L D C W E IH|k i f ops l d n ints es D M E IH|k o ops l d es N E IH]; intros es' H'.
  - inv H'. auto.
  - inv H'; try (exfalso; match goal with X : forall i f, _ <> _ |- _ => eapply X; reflexivity end).
    + assert (A : (n0, ints0) = (n, ints)) by congruence. inv A. assert (A : o0 = o) by congruence. subst. assert (A : h0 = h) by congruence. subst. f_equal. auto.
    + exfalso. assert (A : (n0, ints0) = (n, ints)) by congruence. inv A. match goal with X : _ \/ _ |- _ => destruct X; [contradiction|congruence] end.
  - inv H'; try (exfalso; match goal with X : forall i f, _ <> _ |- _ => eapply X; reflexivity end); auto.
    exfalso. assert (A : (n0, ints0) = (n, ints)) by congruence. inv A. destruct M; [contradiction|congruence].
  - inv H'; try (exfalso; eapply N; reflexivity). auto.
Qed.
Lemma events_app : forall a b k l d es, events k (a ++ b) l d es -> exists ea eb l' d', es = ea ++ eb /\ events k a l d ea /\
  events (k + length a) b l' d' eb /\ l' = families k a l.
Proof.
  induction a as [|o a IH]; intros b k l d es H.
  - exists [], es, l, d. rewrite Nat.add_0_r. repeat split; auto. constructor.
  - cbn [app length] in *. replace (k + S (length a))%nat with (S k + length a)%nat by lia. inv H.
    + destruct (IH _ _ _ _ _ ltac:(match goal with X : events (S k) _ _ _ _ |- _ => exact X end)) as (ea & eb & l' & d' & -> & A & B & ->). eexists (_ :: ea), eb, _, d'. split; [reflexivity|]. split; [|split]; [|exact B|reflexivity]. eapply Ev_hit; eauto.
    + destruct (IH _ _ _ _ _ ltac:(match goal with X : events (S k) _ _ _ _ |- _ => exact X end)) as (ea & eb & l' & d' & -> & A & B & ->). eexists ea, eb, _, d'. split; [reflexivity|]. split; [|split]; [|exact B|reflexivity]. eapply Ev_miss; eauto.
    + destruct (IH _ _ _ _ _ ltac:(match goal with X : events (S k) _ _ _ _ |- _ => exact X end)) as (ea & eb & l' & d' & -> & A & B & ->). eexists ea, eb, _, d'. split; [reflexivity|]. split; [|split]; [|exact B|reflexivity]. eapply Ev_other; eauto.
Qed.
(** Events are later than the search that made their family, and are solves of the history. *)
Definition young (k : nat) (l : list (option nat)) : Prop := forall o, In (Some o) l -> (o < k)%nat.
Lemma in_upd : forall A i (v : A) l x, In x (firstn i l ++ v :: skipn (S i) l) -> x = v \/ In x l.
Proof.
  intros A i v l x H. apply in_app_or in H. destruct H as [H|[H|H]].
  - right. rewrite <- (firstn_skipn i l). apply in_or_app. auto.
  - auto.
  - right. rewrite <- (firstn_skipn (S i) l). apply in_or_app. auto.
Qed.
Lemma young_step : forall k o l, young k l -> young (S k) (fam_step k o l).
Proof.
  intros k o l Y x I. assert (Z : forall i, nth i l None = Some x -> (x < k)%nat).
  { intros i E. apply Y. destruct (nth_in_or_default i l None) as [J|J]; congruence. }
  destruct o; cbn in I.
  - apply in_app_or in I. destruct I as [I|[I|[]]]; [apply Y in I; lia|discriminate].
  - apply in_app_or in I. destruct I as [I|[I|[]]]; [apply Y in I; lia|apply Z in I; lia].
  - apply in_upd in I. destruct I as [I|I]; [discriminate|apply Y in I; lia].
  - apply Y in I. lia.
  - assert (W : (match nth i l None with Some o => Some o | None => Some k end) = Some x \/ In (Some x) l).
    { apply in_app_or in I. destruct I as [I|[I|[]]]; auto. apply in_upd in I. destruct I; auto. }
    destruct W as [W|W]; [|apply Y in W; lia]. destruct (nth i l None) eqn:E; inv W; [specialize (Z i E); lia|lia].
  - apply Y in I. lia.
Qed.
Lemma events_young : forall k ops l d es, events k ops l d es -> young k l -> forall p o x h, In (p, o, x, h) es ->
  (k <= p < k + length ops)%nat /\ (o < p)%nat /\ exists i f n, nth_error ops (p - k) = Some (Solve i f) /\ w_second f = Some h /\ x = firstn n (w_x f) /\ w_opt f = true.
Proof.
  induction 1 as [k l d|k i f ops l d o n ints h es L D C W E IH|k i f ops l d n ints es D M E IH|k o ops l d es N E IH]; intros Y p o' x h' I.
  - contradiction.
  - assert (Y' : young (S k) l) by (intros z Z; apply Y in Z; lia). destruct I as [I|I].
    + inv I. cbn [length]. split; [lia|]. split; [apply Y; eapply nth_error_In; eauto|]. exists i, f, n. rewrite Nat.sub_diag. destruct C. auto.
    + destruct (IH Y' _ _ _ _ I) as (A & B & i' & f' & n' & G & K). cbn [length]. split; [lia|]. split; auto. exists i', f', n'.
      replace (p - k)%nat with (S (p - S k)) by lia. auto.
  - assert (Y' : young (S k) l) by (intros z Z; apply Y in Z; lia).
    destruct (IH Y' _ _ _ _ I) as (A & B & i' & f' & n' & G & K). cbn [length]. split; [lia|]. split; auto. exists i', f', n'. replace (p - k)%nat with (S (p - S k)) by lia. auto.
  - destruct (IH (young_step _ _ _ Y) _ _ _ _ I) as (A & B & i' & f' & n' & G & K). cbn [length]. split; [lia|]. split; auto. exists i', f', n'.
    replace (p - k)%nat with (S (p - S k)) by lia. auto.
Qed.
Lemma young_families : forall ops k l, young k l -> young (k + length ops) (families k ops l).
Proof.
  induction ops as [|o ops IH]; intros k l Y; cbn [families length]; [rewrite Nat.add_0_r; auto|].
  replace (k + S (length ops))%nat with (S k + length ops)%nat by lia. apply IH. apply young_step. auto.
Qed.
Lemma young_nil : young 0 [].
Proof. intros o []. Qed.

(** ** Report *)
Definition reported (r : option (list Q * Q)) (n : nat) : outcome (option (list Q * ext)) :=
  match r with
  | None => Ok None
  | Some (x, v) => match x with [] => Ok None | _ => if Nat.eqb (length x) n then Ok (Some (x, Fin v)) else AssertFail end
  end.
Lemma report_exact : forall ops s i o, exec ops init = Ok s -> nth_error (families 0 ops []) i = Some (Some o) ->
  exists es r, events 0 ops [] [] es /\ best_of (of_family o es) r /\ forall n, report i n s = reported r n.
Proof.
  intros ops s i o H F. destruct (exec_rel _ _ _ _ _ _ H rel_init) as (starts & es & E & R & M). cbn in E, M. rewrite <- M in F.
  rewrite nth_error_map in F. destruct (nth_error (t_solvers s) i) as [v|] eqn:V; [|discriminate]. cbn in F. injection F as F.
  unfold fam in F. destruct (v_info v) as [| |c] eqn:Ei; try discriminate. destruct (re_best _ _ _ _ R c o F) as (r & B & Y). cbn [app] in B.
  exists es, r. split; auto. split; auto. intros n. unfold report. unfold rd at 1. rewrite V. cbn [bind]. rewrite Ei. unfold rd. rewrite Y. cbn [bind].
  destruct r as [[[|a x] w]|]; cbn [reported as_cell e_x e_v]; auto. unfold chk. destruct (Nat.eqb (length (a :: x)) n); reflexivity.
Qed.
Lemma report_null : forall ops s i, exec ops init = Ok s -> nth_error (families 0 ops []) i = Some None -> forall n, report i n s = NullDeref.
Proof.
  intros ops s i H F n. destruct (exec_rel _ _ _ _ _ _ H rel_init) as (starts & es & E & R & M). cbn in E, M. rewrite <- M in F.
  rewrite nth_error_map in F. destruct (nth_error (t_solvers s) i) as [v|] eqn:V; [|discriminate]. cbn in F. injection F as F.
  unfold fam in F. unfold report, rd. rewrite V. cbn [bind]. destruct (v_info v) as [| |c] eqn:Ei; auto.
  apply nth_error_None in F. assert (c < length starts)%nat; [|lia]. eapply (re_in _ _ _ _ R); eauto. eapply nth_error_In; eauto.
Qed.

(** ** The slot *)
Record slot_is (a : slot) (l : option (list Q * nat * Q)) (h : bool) (top : nat) : Prop := mkSlotIs {
  sl_has : a_has a = h;
  sl_num : a_num a = top;
  sl_val : match l with
           | None => a_arr a = None /\ a_obj a = PInf /\ top = 0%nat
           | Some (sol, n, v) => a_obj a = Fin v /\ (n <= top)%nat /\ (n <= length sol)%nat /\
               exists rest, a_arr a = Some (map Some (firstn n sol) ++ Some v :: rest) /\ length rest = (top - n)%nat
           end }.
Lemma blit0 : forall (l : list Q) (r : arr Q), (length l <= length r)%nat -> ablit 0 l r = Ok (map Some l ++ skipn (length l) r).
Proof.
  intros l r L. pose proof (ablit_app l [] (firstn (length l) r) (skipn (length l) r)) as H. cbn [app length] in H. rewrite firstn_skipn in H. apply H.
  rewrite firstn_length. lia.
Qed.
Lemma set_is : forall sol n v a l h top, slot_is a l h top -> (n <= length sol)%nat ->
  exists a', setNlpSolution sol n v a = Ok a' /\ slot_is a' (Some (sol, n, v)) h (Nat.max top n).
Proof.
  intros sol n v a l h top [H1 H2 H3] L. unfold setNlpSolution. apply Nat.leb_le in L as L'. rewrite L'. rewrite H2.
  assert (K : exists r, (match (if Nat.ltb top n then None else a_arr a) with None => (n, fresh (S n)) | Some r => (top, r) end) = (Nat.max top n, r) /\ length r = S (Nat.max top n)).
  { destruct (Nat.ltb_spec top n) as [A|A].
    - exists (fresh (S n)). rewrite Nat.max_r by lia. split; auto. apply repeat_length.
    - rewrite Nat.max_l by lia. destruct l as [[[sol0 n0] v0]|].
      + destruct H3 as (_ & B & C & rest & -> & D). eexists. split; [reflexivity|].
        rewrite app_length, map_length. cbn [length]. rewrite firstn_length. lia.
      + destruct H3 as (-> & _ & T). assert (n = 0%nat) by lia. subst. exists (fresh 1). rewrite T. split; reflexivity. }
  destruct K as (r & -> & Lr). cbn [bind]. assert (Lf : length (firstn n sol) = n) by (rewrite firstn_length; lia).
  rewrite blit0 by lia. cbn [bind]. rewrite Lf. pose proof (skipn_length n r) as SL. destruct (skipn n r) as [|c rest] eqn:E; [cbn in SL; lia|].
  replace (aset n v (map Some (firstn n sol) ++ c :: rest)) with (aset (length (map Some (firstn n sol))) v (map Some (firstn n sol) ++ c :: rest)) by (rewrite map_length, Lf; auto).
  rewrite aset_app. cbn [bind]. eexists. split; [reflexivity|]. constructor; cbn; auto.
  split; auto. split; [lia|]. split; auto. exists rest. split; auto. cbn in SL. lia.
Qed.
Lemma copy_is : forall a l h top, slot_is a l h top -> copy_slot a = match l with Some _ => if Nat.ltb 0 top then Ok a else AssertFail | None => Ok a end.
Proof.
  intros a l h top [H1 H2 H3]. unfold copy_slot. destruct l as [[[sol n] v]|].
  - destruct H3 as (O & B & C & rest & E & D). rewrite E, H2. unfold chk. destruct (Nat.ltb 0 top); auto. cbn [bind].
    assert (Lr : length (map Some (firstn n sol) ++ Some v :: rest) = S top) by (rewrite app_length, map_length, firstn_length; cbn [length]; lia).
    rewrite <- Lr, Nat.leb_refl, firstn_all, <- H2. destruct a; cbn in *; subst. reflexivity.
  - destruct H3 as (-> & _). reflexivity.
Qed.
(** Largest solution passed. *)
Fixpoint top (ops : list sop) (m : nat) : nat := match ops with [] => m | Set_ _ n _ :: ops => top ops (Nat.max m n) | _ :: ops => top ops m end.
(** A copy is made when all solutions passed, at least one, are empty. *)
Fixpoint bad_copy (ops : list sop) (passed : bool) (m : nat) : bool :=
  match ops with
  | [] => false
  | Set_ _ n _ :: ops => bad_copy ops true (Nat.max m n)
  | Has _ :: ops => bad_copy ops passed m
  | Copy :: ops => ((passed && Nat.eqb m 0) || bad_copy ops passed m)%bool
  end.
Lemma sexec_is : forall ops a l h m, slot_is a l h m -> Forall sized ops ->
  if bad_copy ops (match l with None => false | Some _ => true end) m then sexec ops a = AssertFail
  else exists a', sexec ops a = Ok a' /\ slot_is a' (last_set ops l) (last_has ops h) (top ops m).
Proof.
  induction ops as [|o ops IH]; intros a l h m S F; cbn [bad_copy sexec]; [eauto|]. inv F. destruct o as [sol n v|b|]; cbn [sstep last_set last_has top].
  - destruct (set_is sol n v a l h m S H1) as (a' & -> & S'). cbn [bind]. specialize (IH _ _ _ _ S' H2). exact IH.
  - cbn [bind]. assert (S' : slot_is (setHas b a) l b m) by (destruct S; constructor; cbn; auto). exact (IH _ _ _ _ S' H2).
  - rewrite (copy_is _ _ _ _ S). destruct l as [p|]; cbn [andb orb].
    + destruct (Nat.ltb_spec 0 m) as [A|A].
      * assert (Nat.eqb m 0 = false) as -> by (apply Nat.eqb_neq; lia). cbn [bind orb]. exact (IH _ _ _ _ S H2).
      * assert (m = 0%nat) as -> by lia. reflexivity.
    + cbn [bind]. exact (IH _ _ _ _ S H2).
Qed.
Lemma bad_iff : forall ops p m, bad_copy ops p m = true <->
  exists pre post, ops = pre ++ Copy :: post /\ m = 0%nat /\ (p = true \/ exists sol v, In (Set_ sol 0 v) pre) /\ (forall sol n v, In (Set_ sol n v) pre -> n = 0%nat).
Proof.
  induction ops as [|o ops IH]; intros p m; cbn [bad_copy].
  - split; [discriminate|]. intros (pre & post & E & _). destruct pre; discriminate.
  - destruct o as [sol n v|b|].
    + rewrite IH. split.
      * intros (pre & post & -> & M & P & A). exists (Set_ sol n v :: pre), post. split; auto. split; [lia|]. assert (n = 0%nat) as -> by lia.
        split; [right; exists sol, v; left; auto|]. intros s0 n0 v0 [I|I]; [inv I; auto|eauto].
      * intros (pre & post & E & -> & P & A). destruct pre as [|o pre]; [discriminate|]. inv E. exists pre, post. split; auto.
        assert (n = 0%nat) as -> by (eapply A; left; eauto). split; auto. split; auto. intros. eapply A. right. eauto.
    + rewrite IH. split.
      * intros (pre & post & -> & M & P & A). exists (Has b :: pre), post. split; auto. split; auto. split.
        -- destruct P as [P|(s0 & v0 & P)]; auto. right. exists s0, v0. right. auto.
        -- intros s0 n0 v0 [I|I]; [discriminate|eauto].
      * intros (pre & post & E & -> & P & A). destruct pre as [|o pre]; [discriminate|]. inv E. exists pre, post. split; auto. split; auto. split.
        -- destruct P as [P|(s0 & v0 & [P|P])]; [auto|discriminate|eauto].
        -- intros. eapply A. right. eauto.
    + rewrite orb_true_iff, andb_true_iff, Nat.eqb_eq, IH. split.
      * intros [(P & M)|(pre & post & -> & M & P & A)].
        -- exists [], ops. split; auto. split; auto. split; auto. intros ? ? ? [].
        -- exists (Copy :: pre), post. split; auto. split; auto. split.
           ++ destruct P as [P|(s0 & v0 & P)]; auto. right. exists s0, v0. right. auto.
           ++ intros s0 n0 v0 [I|I]; [discriminate|eauto].
      * intros (pre & post & E & -> & P & A). destruct pre as [|o pre].
        -- inv E. left. destruct P as [P|(? & ? & [])]; auto.
        -- inv E. right. exists pre, post. split; auto. split; auto. split.
           ++ destruct P as [P|(s0 & v0 & [P|P])]; [auto|discriminate|eauto].
           ++ intros. eapply A. right. eauto.
Qed.

(** ** Lengths *)
(** Without a change of problem, the solvers of a family have the same columns, and so have all the points of its events. *)
Definition fitting (l : list (option nat)) (d : list (nat * list bool)) (g : nat -> nat) : Prop :=
  length l = length d /\ forall i o, nth_error l i = Some (Some o) -> exists ints, nth_error d i = Some (g o, ints).
Lemma upd_oob : forall A i (v : A) l, (length l <= i)%nat -> firstn i l ++ v :: skipn (S i) l = l ++ [v].
Proof. intros. rewrite firstn_all2, skipn_all2 by lia. reflexivity. Qed.
Lemma fitting_step : forall k o s s' starts es g, no_model o -> (forall i f, o <> Solve i f) -> step o s = Ok s' -> rel k s starts es ->
  fitting (map (fam starts) (t_solvers s)) (map dim (t_solvers s)) g -> exists g', (forall o, (o < k)%nat -> g' o = g o) /\
  fitting (fam_step k o (map (fam starts) (t_solvers s))) (dim_step o (map dim (t_solvers s))) g'.
Proof.
  intros k o s s' starts es g M N H R [L F]. set (l := map (fam starts) (t_solvers s)) in *. set (d := map dim (t_solvers s)) in *.
  assert (Y : forall i o, nth_error l i = Some (Some o) -> (o < k)%nat).
  { intros i x E. unfold l in E. rewrite nth_error_map in E. destruct (nth_error (t_solvers s) i) as [v|]; [|discriminate]. cbn in E. injection E as E. unfold fam in E.
    destruct (v_info v); try discriminate. apply (re_lt _ _ _ _ R). eapply nth_error_In; eauto. }
  assert (V : forall i v, rd i (t_solvers s) = Ok v -> (i < length l)%nat).
  { intros i v E. apply rd_ok in E. unfold l. rewrite map_length. apply nth_error_Some. congruence. }
  assert (Snoc : forall x y g', (forall o, (o < k)%nat -> g' o = g o) -> (forall o, x = Some o -> g' o = fst y) -> fitting (l ++ [x]) (d ++ [y]) g').
  { intros x y g' G X. split; [rewrite !app_length; cbn; lia|]. intros i z E. destruct (Nat.lt_ge_cases i (length l)) as [I|I].
    - rewrite nth_error_app1 in E by auto. destruct (F i z E) as (ints & D). exists ints. rewrite nth_error_app1 by lia. rewrite G by eauto. auto.
    - rewrite nth_error_app2 in E by auto. destruct (i - length l)%nat as [|[|]] eqn:Q; try discriminate. cbn in E. inv E.
      exists (snd y). rewrite nth_error_app2 by lia. rewrite <- L, Q. cbn. rewrite (X z eq_refl). destruct y; reflexivity. }
  destruct o as [n ints|i|i|i n ints|i|i f]; cbn [step] in H; cbn [fam_step dim_step].
  - exists g. split; auto. apply Snoc; auto. discriminate.
  - bnd H v Ev. exists g. split; auto. apply Snoc; auto. intros o E. assert (I := V _ _ Ev). destruct (F i o) as (ints & D); [rewrite (nth_error_nth' l None I); congruence|].
    rewrite (nth_error_nth d i (0%nat, []) D). reflexivity.
  - bnd H v Ev. assert (I := V _ _ Ev). exists g. split; auto. split; [rewrite upd_len by auto; auto|]. intros j o E. rewrite upd_nth_error in E by auto.
    destruct (Nat.eqb j i); [discriminate|eauto].
  - contradiction.
  - bnd H v Ev. assert (I := V _ _ Ev). destruct (nth i l None) as [o|] eqn:E.
    + exists g. split; auto. rewrite upd_same by (rewrite (nth_error_nth' l None I); congruence). apply Snoc; auto. intros o' Eo. inv Eo.
      destruct (F i o') as (ints & D); [rewrite (nth_error_nth' l None I); congruence|]. rewrite (nth_error_nth d i (0%nat, []) D). reflexivity.
    + set (m := fst (nth i d (0%nat, []))). exists (fun o => if Nat.eqb o k then m else g o).
      assert (G : forall o, (o < k)%nat -> (if Nat.eqb o k then m else g o) = g o) by (intros o O; destruct (Nat.eqb_spec o k); [lia|auto]).
      split; auto. split; [rewrite !app_length; cbn [length]; rewrite firstn_length, skipn_length; lia|].
      intros j o E'. destruct (Nat.lt_ge_cases j (length l)) as [J|J].
      * rewrite nth_error_app1 in E' by (rewrite upd_len; auto). rewrite nth_error_app1 by lia. rewrite upd_nth_error in E' by auto.
        destruct (Nat.eqb_spec j i) as [-> |].
        -- injection E' as <-. rewrite Nat.eqb_refl. exists (snd (nth i d (0%nat, []))). unfold m. rewrite (nth_error_nth' d (0%nat, [])) by lia. destruct (nth i d _); reflexivity.
        -- rewrite G by eauto. auto.
      * rewrite nth_error_app2 in E' by (rewrite upd_len; auto). rewrite upd_len in E' by auto. rewrite nth_error_app2 by lia. rewrite <- L.
        destruct (j - length l)%nat as [|[|]] eqn:Q; try discriminate. cbn in E'. injection E' as <-. rewrite Nat.eqb_refl. cbn. exists (snd (nth i d (0%nat, []))). unfold m.
        destruct (nth i d _); reflexivity.
  - exfalso. eapply N. reflexivity.
Qed.
Lemma solve_long : forall i f s s' v h c e, step (Solve i f) s = Ok s' -> nth_error (t_solvers s) i = Some v -> counts (v_n v) (v_ints v) f -> w_second f = Some h ->
  v_info v = Bon c -> nth_error (t_cells s) c = Some e -> ext_ltb (Fin h) (e_v e) = true -> (v_n v <= length (w_x f))%nat.
Proof.
  intros i f s s' v h c e H V C W Ei Y T. cbn [step] in H. unfold rd at 1 in H. rewrite V in H. cbn [bind] in H. bnd H l El. unfold record_solve in El. bnd El b Eb.
  apply (counts_iff _ _ _ Eb) in C. rewrite C, W, Ei in El. unfold rd in El. rewrite Y in El. cbn [bind] in El. rewrite T in El. destruct (Nat.leb_spec (v_n v) (length (w_x f))); [auto|discriminate].
Qed.
Definition cells_fit (s : st) (starts : list nat) (g : nat -> nat) : Prop := forall c o e, nth_error starts c = Some o -> nth_error (t_cells s) c = Some e -> e_x e = [] \/ length (e_x e) = g o.
Lemma exec_fit : forall ops k s s' starts es g, Forall no_model ops -> exec ops s = Ok s' -> rel k s starts es ->
  fitting (map (fam starts) (t_solvers s)) (map dim (t_solvers s)) g -> cells_fit s starts g ->
  exists starts' es' g', rel (k + length ops) s' starts' es' /\ map (fam starts') (t_solvers s') = families k ops (map (fam starts) (t_solvers s)) /\
    fitting (map (fam starts') (t_solvers s')) (map dim (t_solvers s')) g' /\ cells_fit s' starts' g'.
Proof.
  induction ops as [|o ops IH]; intros k s s' starts es g M H R F C; cbn in H.
  - inv H. exists starts, es, g. rewrite Nat.add_0_r. auto.
  - inv M. bnd H s1 E1. cbn [length families]. replace (k + S (length ops))%nat with (S k + length ops)%nat by lia. destruct (is_solve o) as [(i & f & ->)|N].
    + destruct (step_solve _ _ _ _ _ _ _ E1 R) as (S1 & v & V & D). cbn [fam_step].
      assert (K : exists es1, rel (S k) s1 starts es1) by (destruct D as [(o & h & _ & _ & _ & R')|(_ & R')]; eauto). destruct K as (es1 & R1).
      assert (C1 : cells_fit s1 starts g).
      { intros c o e Sc Se. pose proof E1 as E1'. cbn [step] in E1. unfold rd at 1 in E1. rewrite V in E1. cbn [bind] in E1. bnd E1 l El. inv E1. cbn in Se.
        unfold record_solve in El. bnd El b Eb. destruct (b && w_opt f)%bool; [|inv El; eauto].
        destruct (w_second f) as [h|]; [|discriminate]. destruct (v_info v) as [| |c'] eqn:Ei; try (inv El; eauto; fail).
        bnd El e' Ee. apply rd_ok in Ee. destruct (ext_ltb (Fin h) (e_v e')); [|inv El; eauto].
        destruct (Nat.leb_spec (v_n v) (length (w_x f))) as [Lv|Lv]; [|discriminate]. destruct (lset_eq _ _ _ _ _ El) as [Lc ->].
        rewrite upd_nth_error in Se by auto. destruct (Nat.eqb_spec c c') as [-> |]; [|eauto]. inv Se. cbn. right. rewrite firstn_length, Nat.min_l by auto.
        destruct F as [_ F]. destruct (F i o) as (ints & Di).
        - rewrite nth_error_map, V. cbn. unfold fam. rewrite Ei, Sc. reflexivity.
        - rewrite nth_error_map, V in Di. cbn in Di. unfold dim in Di. congruence. }
      destruct (IH _ _ _ _ _ g H3 H R1) as (st' & es' & g' & A); [rewrite S1; auto|auto|]. rewrite S1 in A. eauto.
    + destruct (step_other _ _ _ _ _ _ N E1 R) as (st1 & R' & Fm & Dm & t & Et). destruct (fitting_step _ _ _ _ _ _ _ H2 N E1 R F) as (g1 & G1 & F1).
      assert (C1 : cells_fit s1 st1 g1).
      { intros c o' e Sc Se. assert (Cs : t_cells s1 = t_cells s \/ (t_cells s1 = t_cells s ++ [mkCell [] PInf])).
        { destruct o; cbn [step] in E1; try (inv E1; auto; fail); bnd E1 v Ev; try (inv E1; auto; fail); try (bnd E1 l El; inv E1; auto; fail).
          - destruct (v_info v); try discriminate; [bnd E1 l El; inv E1; auto|inv E1; auto].
          - exfalso. eapply N. reflexivity. }
        destruct (Nat.lt_ge_cases c (length (t_cells s))) as [L|L].
        - assert (Se' : nth_error (t_cells s) c = Some e) by (destruct Cs as [Cs|Cs]; rewrite Cs in Se; auto; rewrite nth_error_app1 in Se by auto; auto).
          assert (Sc' : nth_error starts c = Some o'). { rewrite Et in Sc. rewrite nth_error_app1 in Sc; auto. rewrite <- (re_len _ _ _ _ R). auto. }
          rewrite G1; [eapply C; eauto|]. apply (re_lt _ _ _ _ R). eapply nth_error_In; eauto.
        - left. destruct Cs as [Cs|Cs]; rewrite Cs in Se; [apply nth_error_None in L; congruence|]. rewrite nth_error_app2 in Se by auto.
          destruct (c - length (t_cells s))%nat as [|[|]]; try discriminate. cbn in Se. inv Se. reflexivity. }
      destruct (IH _ _ _ _ _ g1 H3 H R') as (st' & es' & g' & A & B & D & E); [rewrite Fm, Dm; auto|auto|]. rewrite Fm in B. exists st', es', g'. auto.
Qed.
