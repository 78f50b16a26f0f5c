From Verif Require Import Base Arr Nlp Cur_Model Cur_Spec Cur_Proofs.
#[local] Open Scope Q_scope.

(** ** Numbering of the marked positions *)
Fixpoint count (l : list bool) : nat := match l with [] => O | true :: l => S (count l) | false :: l => count l end.
Fixpoint rank (l : list bool) (i : nat) : nat :=
  match l, i with
  | [], _ => O | _, O => O
  | true :: l, S i => S (rank l i)
  | false :: l, S i => rank l i
  end.
Lemma number_snd l k : snd (number l k) = (k + count l)%nat.
Proof.
  revert k; induction l as [|[|] l IH]; intros k; cbn [number count]; [cbn; lia| |].
  - specialize (IH (S k)). destruct (number l (S k)). cbn [snd] in *. lia.
  - specialize (IH k). destruct (number l k). cbn [snd] in *. lia.
Qed.
Lemma number_len l k : length (fst (number l k)) = length l.
Proof.
  revert k; induction l as [|[|] l IH]; intros k; cbn [number]; [reflexivity| |].
  - specialize (IH (S k)). destruct (number l (S k)). cbn [fst length] in *. lia.
  - specialize (IH k). destruct (number l k). cbn [fst length] in *. lia.
Qed.
Lemma number_nth l k i : (i < length l)%nat ->
  nth_error (fst (number l k)) i = Some (if nth i l false then Some (k + rank l i)%nat else None).
Proof.
  revert k i; induction l as [|[|] l IH]; intros k i L; cbn [length] in L; [lia| |]; cbn [number].
  - specialize (IH (S k)). destruct (number l (S k)) as [r k']. cbn [fst] in *.
    destruct i as [|i]; cbn [nth_error nth rank]; [rewrite Nat.add_0_r; reflexivity|].
    rewrite IH by lia. destruct (nth i l false); [|reflexivity]. do 2 f_equal. lia.
  - specialize (IH k). destruct (number l k) as [r k']. cbn [fst] in *.
    destruct i as [|i]; cbn [nth_error nth rank]; [reflexivity|]. rewrite IH by lia. reflexivity.
Qed.
Lemma rank_lt l i : nth i l false = true -> (rank l i < count l)%nat.
Proof.
  revert i; induction l as [|b l IH]; intros i H; [destruct i; discriminate|].
  destruct i as [|i]; cbn [nth] in H; [subst b; cbn; lia|]. specialize (IH i H). destruct b; cbn; lia.
Qed.
Lemma rank_inj l i j : nth i l false = true -> nth j l false = true -> rank l i = rank l j -> i = j.
Proof.
  revert i j; induction l as [|b l IH]; intros i j Hi Hj E; [destruct i; discriminate|].
  destruct i as [|i], j as [|j]; cbn [nth] in Hi, Hj; try reflexivity.
  - subst b. cbn in E. discriminate.
  - subst b. cbn in E. discriminate.
  - f_equal. apply IH; try assumption. destruct b; cbn in E; lia.
Qed.
(** The right-hand side of the reduced system. *)
Fixpoint pickm (l : list bool) (rhs : list Q) : list Q :=
  match l, rhs with
  | true :: l, v :: rhs => v :: pickm l rhs
  | false :: l, _ :: rhs => pickm l rhs
  | _, _ => []
  end.
Lemma pickm_len l rhs : length rhs = length l -> length (pickm l rhs) = count l.
Proof.
  revert rhs; induction l as [|[|] l IH]; intros [|v rhs] L; cbn in L; try discriminate; cbn; try rewrite IH; auto.
Qed.
Lemma pickm_nth l rhs i : length rhs = length l -> nth i l false = true -> nth (rank l i) (pickm l rhs) 0 = nth i rhs 0.
Proof.
  revert rhs i; induction l as [|b l IH]; intros [|v rhs] i L H; cbn in L; try discriminate; [destruct i; discriminate|].
  destruct i as [|i]; cbn [nth] in H.
  - subst b. reflexivity.
  - destruct b; cbn; apply IH; auto.
Qed.
Lemma fill_number l : forall rhs k p, length rhs = length l -> length p = k ->
  fill (fst (number l k)) rhs (p ++ fresh (count l)) = Ok (p ++ map Some (pickm l rhs)).
Proof.
  induction l as [|[|] l IH]; intros [|v rhs] k p L Lp; cbn in L; try discriminate; cbn [number count].
  - reflexivity.
  - specialize (IH rhs (S k) (p ++ [Some v])). destruct (number l (S k)) as [r k'] eqn:E. cbn [fst fill] in *.
    unfold fresh in *. cbn [repeat pickm map]. rewrite <- Lp at 1. rewrite aset_app. cbn [bind].
    rewrite <- !app_assoc in IH. cbn [app] in IH. apply IH; [lia|]. rewrite app_length. cbn [length]. lia.
  - specialize (IH rhs k p). destruct (number l k) as [r k'] eqn:E. cbn [fst fill bind pickm] in *. apply IH; lia.
Qed.
Lemma sealed_map l : sealed (map Some l) = Ok l.
Proof. induction l as [|v l IH]; [reflexivity|]. cbn [map sealed]. rewrite IH. reflexivity. Qed.
Lemma spread_number l : forall k xv, (k + count l <= length xv)%nat ->
  exists d, spread (fst (number l k)) xv = Ok d /\ length d = length l /\
  forall i, nth i d 0 = if nth i l false then nth (k + rank l i) xv 0 else 0.
Proof.
  induction l as [|[|] l IH]; intros k xv L; cbn [number count] in *.
  - exists []. split; [reflexivity|]. split; [reflexivity|]. intros [|i]; reflexivity.
  - destruct (IH (S k) xv) as (d & E & Ld & N); [lia|]. destruct (number l (S k)) as [r k'] eqn:En. cbn [fst spread] in *.
    destruct (nth_error xv k) as [v|] eqn:Ev; [|apply nth_error_None in Ev; lia].
    unfold rd. rewrite Ev. cbn [bind]. rewrite E. cbn [bind]. exists (v :: d). split; [reflexivity|].
    split; [cbn; lia|]. intros [|i]; cbn [nth rank].
    + rewrite Nat.add_0_r. symmetry. apply nth_error_nth, Ev.
    + rewrite N. destruct (nth i l false); [|reflexivity]. f_equal. lia.
  - destruct (IH k xv) as (d & E & Ld & N); [lia|]. destruct (number l k) as [r k'] eqn:En. cbn [fst spread bind] in *.
    rewrite E. cbn [bind]. exists (0 :: d). split; [reflexivity|]. split; [cbn; lia|]. intros [|i]; cbn [nth rank]; [reflexivity|apply N].
Qed.

(** ** Marks *)
Lemma mark_all_ok l b : forall marks, Forall (fun i => i < length marks)%nat l ->
  exists r, mark_all l b marks = Ok r /\ length r = length marks /\
  forall i, (i < length marks)%nat -> nth i r false = if existsb (Nat.eqb i) l then b else nth i marks false.
Proof.
  induction l as [|a l IH]; intros marks F; cbn [mark_all existsb].
  - exists marks. repeat split; reflexivity.
  - pose proof (Forall_inv F) as Ha. apply Forall_inv_tail in F. rewrite lset_ok by exact Ha. cbn [bind].
    pose proof (upd_length a b marks Ha) as Lu.
    destruct (IH (firstn a marks ++ b :: skipn (S a) marks)) as (r & E & Lr & N).
    { rewrite Lu. exact F. }
    exists r. split; [exact E|]. split; [lia|]. intros i Hi. rewrite N by lia. rewrite upd_nth by exact Ha.
    destruct (Nat.eqb_spec i a); cbn [orb]; [destruct (existsb _ l)|]; reflexivity.
Qed.
Lemma mark_eq_ok b : forall lo up marks, length lo = length marks -> length up = length marks ->
  exists r, mark_eq lo up b marks = Ok r /\ length r = length marks /\
  forall i, (i < length marks)%nat -> nth i r false = if eeqb (nth i lo MInf) (nth i up PInf) then b else nth i marks false.
Proof.
  intros lo up marks. revert lo up. induction marks as [|v marks IH]; intros lo up L1 L2; cbn [mark_eq].
  - exists []. split; [reflexivity|]. split; [reflexivity|]. intros i Hi. cbn in Hi. lia.
  - destruct lo as [|l lo], up as [|u up]; cbn in L1, L2; try discriminate.
    destruct (IH lo up) as (r & E & Lr & N); [lia|lia|]. rewrite E. cbn [bind].
    exists ((if eeqb l u then b else v) :: r). split; [reflexivity|]. split; [cbn; lia|].
    intros [|i] Hi; cbn [nth]; [reflexivity|]. apply N. cbn in Hi. lia.
Qed.
Lemma eeqb_same l u : eeqb l u = true <-> same_bound l u.
Proof.
  destruct l, u; cbn; try (split; [discriminate|intros []]); try (split; [intros _; exact Logic.I|reflexivity]).
  apply Qeq_bool_iff.
Qed.

(** ** The entries kept *)
Definition keepb (FX GX : list bool) (rc : nat * nat) : bool := (nth (snd rc) FX false && nth (fst rc) GX false)%bool.
Definition renum (FX GX : list bool) (rc : nat * nat) : nat * nat := (rank GX (fst rc), rank FX (snd rc)).
Lemma keep_st_ok FX GX st : Forall (fun rc => fst rc < length GX /\ snd rc < length FX)%nat st ->
  keep_st (fst (number FX 0)) (fst (number GX 0)) st = Ok (map (renum FX GX) (filter (keepb FX GX) st)).
Proof.
  induction st as [|[r c] st IH]; intros F; cbn [keep_st filter map]; [reflexivity|].
  pose proof (Forall_inv F) as [Hr Hc]. apply Forall_inv_tail in F. cbn [fst snd] in *.
  unfold rd. rewrite !number_nth by assumption. cbn [bind]. rewrite IH by exact F. cbn [bind].
  change (keepb FX GX (r, c)) with (nth c FX false && nth r GX false)%bool.
  destruct (nth c FX false), (nth r GX false); reflexivity.
Qed.
Lemma keep_vals_ok FX GX : forall st jv, Forall (fun rc => fst rc < length GX /\ snd rc < length FX)%nat st ->
  length jv = length st ->
  exists v, keep_vals (fst (number FX 0)) (fst (number GX 0)) st jv = Ok v /\
  length v = length (filter (keepb FX GX) st) /\
  combine (map (renum FX GX) (filter (keepb FX GX) st)) v =
    map (fun t => (renum FX GX (fst t), snd t)) (filter (fun t => keepb FX GX (fst t)) (combine st jv)).
Proof.
  induction st as [|[r c] st IH]; intros jv F L; cbn [keep_vals].
  - exists []. repeat split; destruct jv; reflexivity.
  - destruct jv as [|v jv]; cbn in L; [discriminate|].
    pose proof (Forall_inv F) as [Hr Hc]. apply Forall_inv_tail in F. cbn [fst snd] in *.
    unfold rd. rewrite !number_nth by assumption. cbn [bind].
    destruct (IH jv F) as (w & E & Lw & C); [lia|]. rewrite E. cbn [bind combine filter fst].
    change (keepb FX GX (r, c)) with (nth c FX false && nth r GX false)%bool.
    destruct (nth c FX false), (nth r GX false); cbn [andb].
    + exists (v :: w). split; [reflexivity|]. split; [cbn; lia|]. cbn [map combine fst snd]. f_equal. exact C.
    + exists w. repeat split; assumption.
    + exists w. repeat split; assumption.
    + exists w. repeat split; assumption.
Qed.

(** ** A projection space with its values *)
(** [mk_sv T FX GX sv]: free variables FX, fixed rows GX, entries T of the Jacobian. *)
Definition is_sv (st : list (nat * nat)) (jv : list Q) (FX GX : list bool) (sv : space * list Q) : Prop :=
  s_x (fst sv) = fst (number FX 0) /\ s_nx (fst sv) = count FX /\
  s_g (fst sv) = fst (number GX 0) /\ s_ng (fst sv) = count GX /\
  combine (s_st (fst sv)) (snd sv) =
    map (fun t => (renum FX GX (fst t), snd t)) (filter (fun t => keepb FX GX (fst t)) (combine st jv)).
Definition is_free (n : nat) (xl xu : list ext) (ax : list nat) (FX : list bool) : Prop :=
  length FX = n /\ forall i, (i < n)%nat ->
    nth i FX false = (negb (eeqb (nth i xl MInf) (nth i xu PInf)) && negb (existsb (Nat.eqb i) ax))%bool.
Definition is_fix (m : nat) (gl gu : list ext) (ag : list nat) (GX : list bool) : Prop :=
  length GX = m /\ forall i, (i < m)%nat ->
    nth i GX false = (eeqb (nth i gl MInf) (nth i gu PInf) || existsb (Nat.eqb i) ag)%bool.
Lemma structure_ok e xl xu gl gu ax ag :
  length xl = e_n e -> length xu = e_n e -> length gl = e_m e -> length gu = e_m e ->
  Forall (fun i => i < e_n e)%nat ax -> Forall (fun i => i < e_m e)%nat ag ->
  Forall (fun rc => fst rc < e_m e /\ snd rc < e_n e)%nat (e_jst e) ->
  exists s FX GX, structure e xl xu gl gu ax ag = Ok s /\ is_free (e_n e) xl xu ax FX /\ is_fix (e_m e) gl gu ag GX /\
    s = mkS (fst (number FX 0)) (count FX) (fst (number GX 0)) (count GX) (map (renum FX GX) (filter (keepb FX GX) (e_jst e))).
Proof.
  intros L1 L2 L3 L4 Fx Fg Fj. unfold structure.
  destruct (mark_all_ok ax false (repeat true (e_n e))) as (mx & E1 & Lm1 & N1).
  { rewrite repeat_length. exact Fx. }
  rewrite repeat_length in Lm1, N1. rewrite E1. cbn [bind].
  destruct (mark_eq_ok false xl xu mx) as (FX & E2 & Lm2 & N2); [lia|lia|]. rewrite Lm1 in N2, Lm2. rewrite E2. cbn [bind].
  destruct (mark_all_ok ag true (repeat false (e_m e))) as (mg & E3 & Lm3 & N3).
  { rewrite repeat_length. exact Fg. }
  rewrite repeat_length in Lm3, N3.
  destruct (mark_eq_ok true gl gu mg) as (GX & E4 & Lm4 & N4); [lia|lia|]. rewrite Lm3 in N4, Lm4.
  pose proof (number_snd FX 0) as S1. pose proof (number_snd GX 0) as S2.
  pose proof (keep_st_ok FX GX (e_jst e)) as K. rewrite Lm2, Lm4 in K. specialize (K Fj).
  destruct (number FX 0) as [xm nx] eqn:X. rewrite E3. cbn [bind]. rewrite E4. cbn [bind].
  destruct (number GX 0) as [gm ng] eqn:G. cbn [fst snd] in *. rewrite K. cbn [bind].
  exists (mkS xm nx gm ng (map (renum FX GX) (filter (keepb FX GX) (e_jst e)))), FX, GX. split; [reflexivity|].
  rewrite X, G. cbn [fst]. cbn [Nat.add] in S1, S2. subst nx ng.
  split; [|split; [|reflexivity]].
  - split; [exact Lm2|]. intros i Hi. rewrite N2, N1 by assumption. destruct (eeqb _ _); [reflexivity|]. cbn [negb andb].
    destruct (existsb _ ax); [reflexivity|]. cbn [negb].
    rewrite (nth_indep (repeat true (e_n e)) false true) by (rewrite repeat_length; exact Hi). apply nth_repeat.
  - split; [exact Lm4|]. intros i Hi. rewrite N4, N3 by assumption. destruct (eeqb _ _); [reflexivity|]. cbn [orb].
    destruct (existsb _ ag); [reflexivity|]. apply nth_repeat.
Qed.
Lemma values_ok e jv FX GX s : e_jv e = Some jv -> length jv = length (e_jst e) ->
  Forall (fun rc => fst rc < length GX /\ snd rc < length FX)%nat (e_jst e) ->
  s = mkS (fst (number FX 0)) (count FX) (fst (number GX 0)) (count GX) (map (renum FX GX) (filter (keepb FX GX) (e_jst e))) ->
  exists v, values e s = Ok v /\ is_sv (e_jst e) jv FX GX (s, v).
Proof.
  intros Ej L F ->. unfold values. rewrite Ej. cbn [s_x s_g s_st].
  destruct (keep_vals_ok FX GX (e_jst e) jv F L) as (v & E & Lv & C). rewrite E. cbn [bind].
  rewrite map_length, Lv, Nat.ltb_irrefl. exists v. split; [reflexivity|].
  repeat split; cbn [fst snd s_x s_nx s_g s_ng s_st]. exact C.
Qed.

(** ** The projection *)
Definition in_space (m n : nat) (T : list trip) (FX GX : list bool) (d : list Q) : Prop :=
  length d = n /\ (forall i, (i < n)%nat -> nth i FX false = false -> at_ d i == 0) /\
  (forall r, (r < m)%nat -> nth r GX false = true -> mul_row T d r == 0).
Lemma SolveSystem_sized ls rhs st jv FX GX sv : sized ls -> is_sv st jv FX GX sv -> length rhs = length FX ->
  exists o, SolveSystem ls rhs sv = Ok o /\
  forall d, o = Some d -> length d = length FX /\ forall i, nth i FX false = false -> at_ d i = 0.
Proof.
  intros Z (S1 & S2 & S3 & S4 & S5) L. destruct sv as [s v]. cbn [fst snd] in *. unfold SolveSystem.
  rewrite S1, S2.
  pose proof (fill_number FX rhs 0 [] L eq_refl) as Fi. cbn [app] in Fi. rewrite Fi. cbn [bind].
  rewrite sealed_map. cbn [bind].
  destruct (ls _ _ _ _ _) as [[y w]|] eqn:E.
  - apply Z in E as [Ly Lw]. destruct (spread_number FX 0 y) as (d & Ed & Ld & N); [lia|]. rewrite Ed. cbn [bind].
    exists (Some d). split; [reflexivity|]. intros d' H. injection H as <-. split; [exact Ld|].
    intros i Hi. unfold at_. rewrite N, Hi. reflexivity.
  - exists None. split; [reflexivity|]. discriminate.
Qed.
Lemma mul_row_renum T FX GX y d r :
  (forall t, In t T -> fst (fst t) < length GX /\ snd (fst t) < length FX)%nat ->
  (forall i, nth i FX false = true -> nth i d 0 = nth (rank FX i) y 0) ->
  (forall i, nth i FX false = false -> nth i d 0 == 0) ->
  nth r GX false = true ->
  mul_row (map (fun t => (renum FX GX (fst t), snd t)) (filter (fun t => keepb FX GX (fst t)) T)) y (rank GX r) ==
  mul_row T d r.
Proof.
  intros B N Z Hr. unfold mul_row, at_. induction T as [|[[a c] v] T IH]; [reflexivity|].
  cbn [filter fst snd]. unfold keepb at 1. cbn [fst snd].
  assert (IH' := IH (fun t Ht => B t (or_intror Ht))). clear IH.
  destruct (nth c FX false) eqn:Ec.
  - destruct (nth a GX false) eqn:Ea; cbn [andb map qsum fst snd].
    + rewrite IH'. apply Qplus_comp; [|reflexivity]. unfold renum. cbn [fst snd].
      destruct (Nat.eqb_spec a r) as [->|Na].
      * rewrite Nat.eqb_refl, N by exact Ec. reflexivity.
      * destruct (Nat.eqb_spec (rank GX a) (rank GX r)) as [E|_]; [|reflexivity].
        exfalso. apply Na. eapply rank_inj; eassumption.
    + rewrite IH'. destruct (Nat.eqb_spec a r) as [->|_]; [congruence|]. ring.
  - cbn [andb map qsum fst snd]. rewrite IH'. destruct (Nat.eqb a r); [rewrite Z by exact Ec|]; ring.
Qed.
(** Multipliers by full row number. *)
Definition full_w (GX : list bool) (w : list Q) (r : nat) : Q := if nth r GX false then at_ w (rank GX r) else 0.
Lemma mul_col_renum T FX GX w i : nth i FX false = true ->
  mul_col (map (fun t => (renum FX GX (fst t), snd t)) (filter (fun t => keepb FX GX (fst t)) T)) w (rank FX i) ==
  qsum (map (fun t => if Nat.eqb (snd (fst t)) i then snd t * full_w GX w (fst (fst t)) else 0) T).
Proof.
  intros Hi. unfold mul_col. induction T as [|[[a c] v] T IH]; [reflexivity|].
  cbn [filter fst snd]. unfold keepb at 1. cbn [fst snd].
  destruct (nth c FX false) eqn:Ec.
  - destruct (nth a GX false) eqn:Ea; cbn [andb map qsum fst snd].
    + rewrite IH. apply Qplus_comp; [|reflexivity]. unfold renum, full_w. cbn [fst snd]. rewrite Ea.
      destruct (Nat.eqb_spec c i) as [->|Nc]; [rewrite Nat.eqb_refl; reflexivity|].
      destruct (Nat.eqb_spec (rank FX c) (rank FX i)) as [E|_]; [|reflexivity].
      exfalso. apply Nc. eapply rank_inj; eassumption.
    + assert (E0 : full_w GX w a = 0) by (unfold full_w; rewrite Ea; reflexivity).
      rewrite IH, E0. destruct (Nat.eqb c i); ring.
  - cbn [andb map qsum fst snd]. rewrite IH. destruct (Nat.eqb_spec c i) as [->|_]; [congruence|]. ring.
Qed.
(** Swapping the sums: by columns, by entries, by rows. *)
Lemma sum_cols n T (z : nat -> Q) (W : nat -> Q) : (forall t, In t T -> snd (fst t) < n)%nat ->
  sumn n (fun i => z i * qsum (map (fun t : trip => if Nat.eqb (snd (fst t)) i then snd t * W (fst (fst t)) else 0) T)) ==
  qsum (map (fun t => W (fst (fst t)) * (snd t * z (snd (fst t)))) T).
Proof.
  intros B. induction T as [|[[a c] v] T IH]; cbn [map qsum fst snd].
  - apply sumn_0. intros i _. ring.
  - rewrite <- IH by (intros t Ht; apply B; right; exact Ht).
    transitivity (sumn n (fun i => (if Nat.eqb c i then z i * (v * W a) else 0) +
       z i * qsum (map (fun t : trip => if Nat.eqb (snd (fst t)) i then snd t * W (fst (fst t)) else 0) T))).
    { apply sumn_ext. intros i _. destruct (Nat.eqb c i); ring. }
    rewrite sumn_add. rewrite (sumn_pick' n c (fun i => z i * (v * W a))) by (apply (B (a, c, v)); left; reflexivity).
    apply Qplus_comp; [ring|reflexivity].
Qed.
Lemma sum_rows m T (z : list Q) (W : nat -> Q) : (forall t, In t T -> fst (fst t) < m)%nat ->
  sumn m (fun r => W r * mul_row T z r) == qsum (map (fun t => W (fst (fst t)) * (snd t * at_ z (snd (fst t)))) T).
Proof.
  intros B. unfold mul_row. induction T as [|[[a c] v] T IH]; cbn [map qsum fst snd].
  - apply sumn_0. intros i _. ring.
  - rewrite <- IH by (intros t Ht; apply B; right; exact Ht).
    transitivity (sumn m (fun r => (if Nat.eqb a r then W r * (v * at_ z c) else 0) +
       W r * qsum (map (fun t : trip => if Nat.eqb (fst (fst t)) r then snd t * at_ z (snd (fst t)) else 0) T))).
    { apply sumn_ext. intros i _. destruct (Nat.eqb a i); ring. }
    rewrite sumn_add. rewrite (sumn_pick' m a (fun i => W i * (v * at_ z c))) by (apply (B (a, c, v)); left; reflexivity).
    reflexivity.
Qed.
(** What an exact solver returns: the direction is in the space, and what was taken off is
    orthogonal to the space. *)
Lemma SolveSystem_exact ls rhs st jv FX GX sv d : solves ls -> is_sv st jv FX GX sv ->
  length rhs = length FX ->
  Forall (fun rc => fst rc < length GX /\ snd rc < length FX)%nat st ->
  SolveSystem ls rhs sv = Ok (Some d) ->
  in_space (length GX) (length FX) (combine st jv) FX GX d /\
  forall z, in_space (length GX) (length FX) (combine st jv) FX GX z ->
    sumn (length FX) (fun i => at_ z i * (at_ d i - at_ rhs i)) == 0.
Proof.
  intros [Z SO] (S1 & S2 & S3 & S4 & S5) L F H. destruct sv as [s v]. cbn [fst snd] in *. unfold SolveSystem in H.
  rewrite S1, S2 in H.
  pose proof (fill_number FX rhs 0 [] L eq_refl) as Fi. cbn [app] in Fi. rewrite Fi in H. cbn [bind] in H.
  rewrite sealed_map in H. cbn [bind] in H.
  destruct (ls _ _ _ _ _) as [[y w]|] eqn:E; [|discriminate].
  pose proof (Z _ _ _ _ _ _ _ E) as [Ly Lw].
  assert (BT : forall t, In t (combine st jv) -> (fst (fst t) < length GX /\ snd (fst t) < length FX)%nat).
  { intros [rc q] Ht. apply in_combine_l in Ht. rewrite Forall_forall in F. apply F in Ht. exact Ht. }
  destruct (SO _ _ _ _ _ _ _ E) as [SC SR].
  { rewrite S5. apply Forall_forall. intros t Ht. apply in_map_iff in Ht as ([[a c] q] & <- & Ht).
    apply filter_In in Ht as [Ht K]. unfold keepb in K. cbn [fst snd] in *. apply andb_true_iff in K as [K1 K2].
    unfold renum. cbn [fst snd]. rewrite S4. split; apply rank_lt; assumption. }
  rewrite S5, S4 in *.
  destruct (spread_number FX 0 y) as (d' & Ed & Ld & N); [lia|]. rewrite Ed in H. cbn [bind] in H. injection H as <-.
  rename d' into d. cbn [Nat.add] in N.
  assert (ND : in_space (length GX) (length FX) (combine st jv) FX GX d).
  { split; [exact Ld|]. split.
    - intros i _ Hi. unfold at_. rewrite N, Hi. reflexivity.
    - intros r Hr Hg. rewrite <- (mul_row_renum (combine st jv) FX GX y d r BT); try assumption.
      + rewrite SR by (apply rank_lt; exact Hg). unfold at_. rewrite nth_repeat. reflexivity.
      + intros i Hi. rewrite N, Hi. reflexivity.
      + intros i Hi. rewrite N, Hi. reflexivity. }
  split; [exact ND|].
  intros z (Lz & Z1 & Z2).
  set (T := combine st jv) in *.
  transitivity (- sumn (length FX) (fun i => at_ z i *
     qsum (map (fun t : trip => if Nat.eqb (snd (fst t)) i then snd t * full_w GX w (fst (fst t)) else 0) T))).
  { rewrite <- (Qmult_1_l (sumn _ (fun i => at_ z i * qsum _))). setoid_replace (- (1 * sumn (length FX) (fun i => at_ z i *
     qsum (map (fun t : trip => if Nat.eqb (snd (fst t)) i then snd t * full_w GX w (fst (fst t)) else 0) T))))
     with ((-(1)) * sumn (length FX) (fun i => at_ z i *
     qsum (map (fun t : trip => if Nat.eqb (snd (fst t)) i then snd t * full_w GX w (fst (fst t)) else 0) T))) by ring.
    rewrite <- sumn_scal. apply sumn_ext. intros i Hi. destruct (nth i FX false) eqn:Ei.
    - specialize (SC (rank FX i) (rank_lt _ _ Ei)). rewrite mul_col_renum in SC by exact Ei.
      unfold at_ in SC at 1 2. rewrite pickm_nth in SC by assumption. unfold at_ at 2 3. rewrite N, Ei.
      setoid_replace (nth (rank FX i) y 0 - nth i rhs 0) with
        (- qsum (map (fun t : trip => if Nat.eqb (snd (fst t)) i then snd t * full_w GX w (fst (fst t)) else 0) T)); [ring|].
      lra.
    - rewrite (Z1 i Hi Ei). ring. }
  rewrite sum_cols by (intros t Ht; apply BT, Ht).
  rewrite <- (sum_rows (length GX)) by (intros t Ht; apply BT, Ht).
  rewrite sumn_0; [ring|]. intros r Hr. unfold full_w. destruct (nth r GX false) eqn:Eg; [|ring].
  rewrite (Z2 r Hr Eg). ring.
Qed.
