(** Properties of problems given as AMPL files. *)
From Coq Require Import Ascii String.
From Verif Require Import Base Arr Amp_Model Amp_Spec Amp_Proofs.
#[local] Open Scope list_scope.
#[local] Open Scope Q_scope.

(** ** C175 *)
Theorem C175 : C175_full.
Proof.
  intros L a b La Lb. split; [exact (types_right L a La)|]. split; [exact (linear_right L b Lb)|].
  unfold linear_objective, counts_of. cbn [nlvb nlvo]. unfold in_obj, total. split.
  - intros H j Hj. apply andb_prop in H. destruct H as [H1 H2]. apply Z.eqb_eq in H1, H2. destruct (no L) eqn:E; lia.
  - intros H. assert (nb L = 0)%nat by (destruct (nb L) eqn:E; [reflexivity|]; exfalso; apply (H 0%nat); lia).
    assert (no L = 0)%nat as -> by (destruct (no L) eqn:E; [reflexivity|]; exfalso; apply (H (nb L + nc L)%nat); lia).
    apply andb_true_intro. split; apply Z.eqb_eq; lia.
Qed.
Print Assumptions C175.
(** One variable of each kind, and a problem with a linear objective. *)
Definition lay_all : layout := mkLay 1 1 1 1 1 1 1 1 1.
Definition lay_lin : layout := mkLay 0 0 2 0 0 0 1 1 0.
Example C175_ex : variables_types (counts_of lay_all) 9 (fresh 9) = Ok (map Some [Continuous; Integer; Continuous; Integer; Continuous; Integer; Continuous; Binary; Integer]) /\
  variables_linearity (counts_of lay_lin) 4 (fresh 4) = Ok (map Some [false; false; true; true]) /\ linear_objective (counts_of lay_lin) = true /\ linear_objective (counts_of lay_all) = false.
Proof. vm_compute. auto. Qed.

(** ** C176 *)
(** The gradient is set to 0 for the first nlvb variables and for nlvo variables from position nlvb + nlvc on; these are beyond the array if there are
    fewer variables. *)
Theorem C176_exact_partial : forall L grad, length grad = total L ->
  let c := counts_of L in let s := (nlvb c + nlvc c)%Z in
  ((nlvo c = 0 \/ s + nlvo c <= Z.of_nat (total L))%Z -> exists r, linear_part c grad = Ok r /\ length r = total L /\
     forall j, nth j r 0 = if ((Z.of_nat j <? nlvb c) || ((s <=? Z.of_nat j) && (Z.of_nat j <? s + nlvo c)))%Z%bool then 0 else nth j grad 0) /\
  ((0 < nlvo c /\ Z.of_nat (total L) < s + nlvo c)%Z -> linear_part c grad = OutOfBounds).
Proof.
  intros L grad Lg. cbv zeta. unfold linear_part.
  assert (B : (0 <= nlvb (counts_of L) <= Z.of_nat (length grad))%Z) by (cbn; rewrite Lg; unfold total; lia).
  assert (P : (0 <= nlvb (counts_of L) + nlvc (counts_of L))%Z) by (cbn; lia).
  destruct (zero_ok 0 (nlvb (counts_of L)) grad) as (o & A1 & A2 & A3); [lia|lia|]. rewrite A1. cbn [bind]. split.
  - intros H. destruct (Z.eq_dec (nlvo (counts_of L)) 0) as [E|E].
    + exists o. unfold zero. rewrite E. destruct (Z.leb_spec (nlvb (counts_of L) + nlvc (counts_of L) + 0) (nlvb (counts_of L) + nlvc (counts_of L))); [|lia].
      split; [reflexivity|]. split; [lia|]. intros j. rewrite A3. set (s := (nlvb (counts_of L) + nlvc (counts_of L))%Z) in *.
      destruct (Z.leb_spec 0 (Z.of_nat j)); [|lia]. cbn [andb]. destruct (Z.ltb_spec (Z.of_nat j) (nlvb (counts_of L))); cbn [orb]; [reflexivity|].
      destruct (Z.leb_spec s (Z.of_nat j)), (Z.ltb_spec (Z.of_nat j) (s + 0)); cbn [andb]; try reflexivity. lia.
    + destruct (zero_ok (nlvb (counts_of L) + nlvc (counts_of L)) (nlvb (counts_of L) + nlvc (counts_of L) + nlvo (counts_of L)) o) as (r & B1 & B2 & B3); [exact P|lia|].
      exists r. split; [exact B1|]. split; [lia|]. intros j. rewrite B3, A3. destruct (Z.leb_spec 0 (Z.of_nat j)); [|lia]. cbn [andb].
      destruct (_ && _)%bool; destruct (Z.ltb _ _); reflexivity.
  - intros [H1 H2]. apply zero_oob; [lia|]. rewrite A2, Lg. exact H2.
Qed.
Print Assumptions C176_exact_partial.
(** So it is right if the objective is linear, or if no constraint is nonlinear. *)
Theorem C176_partial : forall L grad, length grad = total L -> (nb L = 0 /\ (no L = 0 \/ nc L = 0))%nat ->
  exists r, linear_part (counts_of L) grad = Ok r /\ length r = total L /\
    forall j, (j < total L)%nat -> (in_obj L j -> nth j r 0 == 0) /\ (~ in_obj L j -> nth j r 0 == nth j grad 0).
Proof.
  intros L grad Lg [Hb Hc]. destruct (C176_exact_partial L grad Lg) as [A _]. destruct A as (r & A1 & A2 & A3).
  { cbn. destruct (no L) eqn:E; [lia|]. right. unfold total. rewrite E. lia. }
  exists r. split; [exact A1|]. split; [exact A2|]. intros j Hj. rewrite A3. cbn [counts_of nlvb nlvc nlvo]. unfold in_obj.
  destruct (Z.ltb_spec (Z.of_nat j) (Z.of_nat (nb L))); [lia|]. cbn [orb].
  destruct (no L) eqn:E.
  - destruct (Z.leb_spec (Z.of_nat (nb L) + Z.of_nat (nb L + nc L)) (Z.of_nat j)), (Z.ltb_spec (Z.of_nat j) (Z.of_nat (nb L) + Z.of_nat (nb L + nc L) + Z.of_nat (nb L))); cbn [andb];
      split; intros; try reflexivity; lia.
  - destruct (Z.leb_spec (Z.of_nat (nb L) + Z.of_nat (nb L + nc L)) (Z.of_nat j)), (Z.ltb_spec (Z.of_nat j) (Z.of_nat (nb L) + Z.of_nat (nb L + nc L) + Z.of_nat (nb L + nc L + S n))); cbn [andb];
      split; intros; try reflexivity; lia.
Qed.
Print Assumptions C176_partial.
(** min x^2 subject to x^2 <= 1: beyond the array.  With three more linear variables: a linear coefficient is lost. *)
Theorem C176_refuted : ~ C176_full.
Proof.
  intros F. destruct (F (mkLay 1 0 0 0 0 0 0 0 0) [2] eq_refl) as (r & A & _). vm_compute in A. discriminate A.
Qed.
Print Assumptions C176_refuted.
Example C176_ex : linear_part (counts_of (mkLay 0 0 0 0 1 1 1 0 0)) [5; 6; 7] = Ok [0; 0; 7] /\ linear_part (counts_of (mkLay 0 0 2 0 0 0 1 0 0)) [5; 6; 7] = Ok [5; 6; 7] /\
  linear_part (counts_of (mkLay 1 0 0 0 0 0 3 0 0)) [2; 5; 6; 7] = Ok [0; 5; 0; 7].
Proof. vm_compute. auto. Qed.

(** ** C177 *)
Theorem C177 : C177_full.
Proof.
  intros words n x [Hp Hd Hu Hw]. unfold read_priorities. rewrite (copy_opt_all n _ Hp). cbn [bind].
  assert (D : exists d, copy_opt n (option_map (as_ints words) (x_dir x)) = Ok d).
  { destruct (x_dir x) as [l|] eqn:E; [|exists None; reflexivity]. cbn. unfold copy_of. rewrite as_ints_len, (Hd l eq_refl). destruct (Nat.leb_spec n (2 * n)); [|lia]. eexists. reflexivity. }
  destruct D as [d ->]. cbn [bind].
  assert (U : forall v, v = (match x_up x with None => x_dw x | u => u end) \/ v = (match x_dw x with None => x_up x | d => d end) -> copy_opt n v = Ok v).
  { intros v [-> | ->]; apply copy_opt_all; [destruct (x_up x); assumption|destruct (x_dw x); assumption]. }
  rewrite (U _ (or_introl eq_refl)), (U _ (or_intror eq_refl)). cbn [bind]. eexists. split; [reflexivity|]. cbn [r_pri r_dir r_up r_dw].
  split; [|destruct (x_up x), (x_dw x); repeat split; intros; try discriminate; try congruence; intuition discriminate].
  destruct (x_pri x) as [p|]; [|reflexivity]. cbn. eexists. split; [reflexivity|]. split; [rewrite map_length; exact (Hp p eq_refl)|]. split.
  - intros i j a c a' c' H1 H2 H3 H4. rewrite (map_nth_error _ _ _ H1) in H3. rewrite (map_nth_error _ _ _ H2) in H4. injection H3 as <-. injection H4 as <-. lia.
  - intros i H. rewrite (map_nth_error _ _ _ H). reflexivity.
Qed.
Print Assumptions C177.
Example C177_ex : read_priorities (fun _ => (0, 0)%Z) 3 (mkVsuff (Some [0; 5; 2]%Z) None (Some [1; 2; 3]) None) =
  Ok (mkBranching (Some [9999; 9994; 9997]%Z) None (Some [1; 2; 3]) (Some [1; 2; 3])).
Proof. vm_compute. reflexivity. Qed.

(** ** C178 *)
(** The numbers of the suffix are read as pairs of ints: variables at even positions get no direction, and variable 2k+1 gets the direction of
    variable k. *)
Theorem C178_exact_partial : forall words n x l b, ieee words -> vsuff_ok n x -> x_dir x = Some l -> Forall one_of l -> read_priorities words n x = Ok b ->
  exists d, r_dir b = Some d /\ length d = n /\ forall i z, nth_error d i = Some z ->
    exists q, nth_error l (Nat.div2 i) = Some q /\ Z.sgn z = if Nat.even i then 0%Z else sign_of q.
Proof.
  intros words n x l b (I0 & I1 & I2) [Hp Hd Hu Hw] E F H. unfold read_priorities in H. rewrite E in H. cbn [option_map copy_opt] in H.
  apply bind_ok in H. destruct H as (p & _ & H). unfold copy_of in H at 1. rewrite as_ints_len, (Hd l E) in H. destruct (Nat.leb_spec n (2 * n)); [|lia]. cbn [bind] in H.
  apply bind_ok in H. destruct H as (u & _ & H). apply bind_ok in H. destruct H as (w & _ & H). injection H as <-. cbn [r_dir].
  eexists. split; [reflexivity|]. split; [rewrite firstn_length, as_ints_len, (Hd l E); lia|].
  intros i z Hz. assert (Li : (i < n)%nat).
  { assert (i < length (firstn n (as_ints words l)))%nat by (apply nth_error_Some; congruence). rewrite firstn_length in H. lia. }
  assert (Hz' : nth_error (as_ints words l) i = Some z).
  { rewrite <- (firstn_skipn n (as_ints words l)). rewrite nth_error_app1; [exact Hz|]. apply nth_error_Some. congruence. }
  rewrite as_ints_nth in Hz'. destruct (nth_error l (Nat.div2 i)) as [q|] eqn:Eq0; [|discriminate Hz']. exists q. split; [reflexivity|]. cbn in Hz'. injection Hz' as <-.
  rewrite Forall_forall in F. destruct (F q (nth_error_In _ _ Eq0)) as [-> | [-> | ->]]; rewrite ?I0, ?I1, ?I2; destruct (Nat.even i); reflexivity.
Qed.
Print Assumptions C178_exact_partial.
Definition words_ex (q : Q) : Z * Z := if Qeq_bool q 1 then (0, 1072693248)%Z else if Qeq_bool q (-1) then (0, -1074790400)%Z else (0, 0)%Z.
(** Up for the first variable, down for the second: nothing for the first, up for the second. *)
Theorem C178_refuted : ~ C178_full.
Proof.
  intros F. destruct (F words_ex 2%nat (mkVsuff None (Some [1; -1]) None None) [1; -1] (mkBranching None (Some [0; 1072693248]%Z) None None)) as (d & A & B).
  - repeat split.
  - split; intros a Ha; try discriminate Ha. injection Ha as <-. reflexivity.
  - reflexivity.
  - apply Forall_cons; [right; left; reflexivity|]. apply Forall_cons; [right; right; reflexivity|]. apply Forall_nil.
  - vm_compute. reflexivity.
  - injection A as <-. destruct (B 0%nat 1 eq_refl) as (z & C & D). injection C as <-. vm_compute in D. discriminate D.
Qed.
Print Assumptions C178_refuted.
(** It is right where all directions are 0. *)
Theorem C178_partial : forall words n x l b, ieee words -> vsuff_ok n x -> x_dir x = Some l -> Forall (fun q => q = 0) l -> read_priorities words n x = Ok b ->
  exists d, r_dir b = Some d /\ forall i q, nth_error l i = Some q -> exists z, nth_error d i = Some z /\ Z.sgn z = sign_of q.
Proof.
  intros words n x l b I V E F H. destruct (C178_exact_partial words n x l b I V E) as (d & A & B & C); [|exact H|].
  - eapply Forall_impl; [|exact F]. intros q ->. left. reflexivity.
  - exists d. split; [exact A|]. intros i q Hq. assert (Li : (i < length d)%nat) by (rewrite B, <- (vo_dir n x V l E); apply nth_error_Some; congruence).
    destruct (nth_error d i) as [z|] eqn:Ez; [|apply nth_error_None in Ez; lia]. exists z. split; [reflexivity|].
    destruct (C i z Ez) as (q' & D1 & D2). rewrite Forall_forall in F. rewrite (F q (nth_error_In _ _ Hq)). rewrite (F q' (nth_error_In _ _ D1)) in D2. rewrite D2. destruct (Nat.even i); reflexivity.
Qed.
Print Assumptions C178_partial.
Example C178_ex : ieee words_ex /\ read_priorities words_ex 4 (mkVsuff None (Some [1; -1; 0; 1]) None None) = Ok (mkBranching None (Some [0; 1072693248; 0; -1074790400]%Z) None None) /\
  read_priorities words_ex 2 (mkVsuff None (Some [0; 0]) None None) = Ok (mkBranching None (Some [0; 0]%Z) None None).
Proof. vm_compute. auto. Qed.

(** ** C179 *)
Theorem C179 : C179_full.
Proof.
  intros m w types F L z. unfold read_sos, z. cbn [z_m z_num z_types z_starts z_weights]. rewrite Nat.eqb_refl. cbn [negb].
  destruct (Nat.eqb_spec (length w) 0) as [E|E].
  - destruct w; [|discriminate E]. destruct types; [|discriminate L]. split; [exists []; split; [reflexivity|constructor]|intros H; exfalso; apply H; constructor].
  - destruct (kludge_ok w [] F) as (w' & A & B). cbn [length app] in A.
    assert (T : firstn (length w) (tl (starts_of 0 w)) = tl (starts_of 0 w)).
    { apply firstn_all2. pose proof (starts_len w 0) as S0. destruct (starts_of 0 w); cbn in *; lia. }
    rewrite T, A. cbn [bind]. rewrite <- L, firstn_all. destruct (sos_types_ok types) as [C D]. split; intros H.
    + rewrite (C H). cbn [bind]. exists w'. split; [reflexivity|exact B].
    + rewrite (D H). reflexivity.
Qed.
Print Assumptions C179.
Example C179_ex : read_sos 4 (mkSos 2 [49; 50]%Z [0; 3; 5]%nat [1; 1; 5; 2; 1] 4) = Ok ([1; 2]%Z, [1; 1 + gap + gap; 5; 2; 2 + gap + gap]) /\
  read_sos 4 (mkSos 1 [51]%Z [0; 2]%nat [1; 2] 4) = Thrown.
Proof. vm_compute. auto. Qed.

(** ** C180 *)
Theorem C180 : C180_full.
Proof.
  intros nobj l N L. unfold read_obj. destruct (Nat.ltb_spec nobj 2); [lia|]. destruct l as [|z l]; [cbn in L; lia|].
  cbn [rd nth_error bind]. unfold rd. cbn [nth_error]. cbn [bind]. rewrite (copy_all nobj (z :: l) L). cbn [bind]. split.
  - intros k H1 U. rewrite (last_mark_one (z :: l) 0 None k H1 U). eexists. split; [reflexivity|]. destruct (Z.eqb_spec z 1) as [->|Nz].
    + split; [lia|]. intros H2. specialize (U 0%nat eq_refl) as U0. specialize (U 1%nat H2). lia.
    + split; [lia|]. cbn. congruence.
  - intros H1. rewrite (last_mark_ok (z :: l) 0 None H1). destruct (Z.eqb_spec z 1) as [->|Nz]; [exfalso; apply (H1 0%nat); reflexivity|reflexivity].
Qed.
Print Assumptions C180.
Example C180_ex : read_obj 2 (Some [1; 0]%Z) = Ok (Some 1%nat, Some 0%nat) /\ read_obj 3 (Some [0; 0; 1]%Z) = Ok (Some 0%nat, Some 2%nat) /\ read_obj 2 (Some [1; 1]%Z) = Ok (Some 1%nat, Some 1%nat).
Proof. vm_compute. auto. Qed.

(** ** C181 *)
(** [y] for an identifier: the last variable carrying it; variable 0 if there is none. *)
Definition carrier (ids : list Z) (z : Z) (y : nat) : Prop := nth_error ids y = Some z \/ (~ In z ids /\ y = 0%nat).
Lemma concaves_ok ids : forall pv i grads r, concaves ids i pv grads = Ok r ->
  (forall t, In t r -> (i <= fst (fst t))%nat) /\ NoDup (map (fun t => fst (fst t)) r) /\
  (forall k, In k (map (fun t => fst (fst t)) r) <-> (i <= k)%nat /\ marked pv (k - i)) /\
  forall k y x, In (k, y, x) r -> exists z, nth_error pv (k - i) = Some z /\ carrier ids z y /\ (nth_error grads k = Some [x; y] \/ nth_error grads k = Some [y; x]).
Proof.
  induction pv as [|z pv IH]; intros i grads r H; cbn [concaves] in H.
  - injection H as <-. cbn. split; [tauto|]. split; [constructor|]. split; [|tauto]. intros k. split; [tauto|]. intros [_ (z & A & _)]. destruct (k - i)%nat; discriminate A.
  - assert (Sh : forall k, (S i <= k)%nat -> nth_error (z :: pv) (k - i) = nth_error pv (k - S i)).
    { intros k Lk. replace (k - i)%nat with (S (k - S i)) by lia. reflexivity. }
    destruct (Z.eqb_spec z 0) as [->|Nz].
    + destruct (IH (S i) grads r H) as (A1 & A2 & A3 & A4). split; [intros t It; specialize (A1 t It); lia|]. split; [exact A2|]. split.
      * intros k. rewrite A3. unfold marked. split; intros [B1 (y & B2 & B3)].
        -- split; [lia|]. exists y. rewrite Sh by lia. auto.
        -- destruct (Nat.eq_dec k i) as [->|Nk]; [rewrite Nat.sub_diag in B2; injection B2 as <-; congruence|]. rewrite Sh in B2 by lia. split; [lia|]. exists y. auto.
      * intros k y x It. specialize (A1 _ It). cbn in A1. rewrite Sh by lia. exact (A4 k y x It).
    + apply bind_ok in H. destruct H as (g & G & H). unfold rd in G. destruct (nth_error grads i) as [g'|] eqn:Eg; [|discriminate G]. injection G as ->.
      set (y0 := match id_map 0 ids z None with Some y => y | None => 0%nat end) in *.
      assert (Cy : carrier ids z y0).
      { pose proof (id_map_ok ids 0 z None) as M. unfold y0, carrier. destruct (id_map 0 ids z None) as [y|]; [|right; tauto].
        destruct M as [[M _]|[_ M]]; [discriminate M|]. rewrite Nat.sub_0_r in M. left. exact M. }
      assert (K : exists x0 r0, concaves ids (S i) pv grads = Ok r0 /\ r = (i, y0, x0) :: r0 /\ (g = [x0; y0] \/ g = [y0; x0])).
      { destruct g as [|a [|b [|c g]]]; try discriminate H. destruct (Nat.eqb_spec a y0) as [->|Na]; [|destruct (Nat.eqb_spec b y0) as [->|Nb]; [|discriminate H]].
        - apply bind_ok in H. destruct H as (r0 & R & H). injection H as <-. exists b, r0. auto.
        - apply bind_ok in H. destruct H as (r0 & R & H). injection H as <-. exists a, r0. auto. }
      destruct K as (x0 & r0 & R & -> & Eg'). destruct (IH (S i) grads r0 R) as (A1 & A2 & A3 & A4). split; [|split; [|split]].
      * intros t [<-|It]; [cbn; lia|]. specialize (A1 t It). lia.
      * cbn. constructor; [|exact A2]. intros I. apply A3 in I. lia.
      * intros k. cbn [map fst In]. rewrite A3. unfold marked. split.
        -- intros [<-|[B1 (y & B2 & B3)]]; [rewrite Nat.sub_diag; split; [lia|]; exists z; auto|]. split; [lia|]. exists y. rewrite Sh by lia. auto.
        -- intros [B1 (y & B2 & B3)]. destruct (Nat.eq_dec k i) as [->|Nk]; [left; reflexivity|]. right. rewrite Sh in B2 by lia. split; [lia|]. exists y. auto.
      * intros k y x [E|It].
        -- injection E as <- <- <-. exists z. rewrite Nat.sub_diag. split; [reflexivity|]. split; [exact Cy|]. rewrite Eg. destruct Eg' as [-> | ->]; auto.
        -- specialize (A1 _ It) as A1'. cbn in A1'. rewrite Sh by lia. exact (A4 k y x It).
Qed.
Theorem C181_exact_partial : forall ids pv grads r, read_convexities (Some ids) (Some pv) grads = Ok r ->
  (forall i, marked pv i <-> In i (map (fun t => fst (fst t)) r)) /\ NoDup (map (fun t => fst (fst t)) r) /\
  forall i y x, In (i, y, x) r -> exists z, nth_error pv i = Some z /\ carrier ids z y /\ (nth_error grads i = Some [x; y] \/ nth_error grads i = Some [y; x]).
Proof.
  intros ids pv grads r H. destruct (concaves_ok ids pv 0 grads r H) as (_ & A2 & A3 & A4). split; [|split; [exact A2|]].
  - intros i. rewrite A3, Nat.sub_0_r. split; [intros B; split; [lia|exact B]|tauto].
  - intros i y x I. destruct (A4 i y x I) as (z & B). rewrite Nat.sub_0_r in B. exists z. exact B.
Qed.
Print Assumptions C181_exact_partial.
(** Right if each identifier used is carried by some variable. *)
Theorem C181_partial : forall ids pv grads r, (forall z, In z pv -> z <> 0%Z -> In z ids) -> read_convexities (Some ids) (Some pv) grads = Ok r ->
  (forall i, marked pv i <-> In i (map (fun t => fst (fst t)) r)) /\ NoDup (map (fun t => fst (fst t)) r) /\
  forall i y x, In (i, y, x) r -> nth_error ids y = nth_error pv i /\ (nth_error grads i = Some [x; y] \/ nth_error grads i = Some [y; x]).
Proof.
  intros ids pv grads r C H. destruct (C181_exact_partial ids pv grads r H) as (A1 & A2 & A3). split; [exact A1|]. split; [exact A2|].
  intros i y x I. destruct (A3 i y x I) as (z & B1 & B2 & B3). split; [|exact B3]. rewrite B1. destruct B2 as [B2|[B2 _]]; [exact B2|].
  exfalso. apply B2. apply C; [exact (nth_error_In _ _ B1)|]. assert (M : marked pv i) by (apply A1; exact (in_map (fun t => fst (fst t)) _ _ I)).
  destruct M as (z' & M1 & M2). congruence.
Qed.
Print Assumptions C181_partial.
(** The identifier 7 is carried by no variable: variable 0 is taken for y although it carries 3. *)
Theorem C181_refuted : ~ C181_full.
Proof.
  intros F. destruct (F [3; 0]%Z [7]%Z [[0; 1]%nat] [(0, 0, 1)]%nat eq_refl eq_refl) as (_ & _ & A).
  destruct (A 0%nat 0%nat 1%nat (or_introl eq_refl)) as [B _]. discriminate B.
Qed.
Print Assumptions C181_refuted.
Example C181_ex : read_convexities (Some [0; 3; 4]%Z) (Some [4; 0; 3]%Z) [[0; 2]; [0; 1; 2]; [1; 0]]%nat = Ok [(0, 2, 0); (2, 1, 0)]%nat /\
  read_convexities (Some [0; 3; 4]%Z) (Some [4; 0; 3]%Z) [[0; 1]; [0; 1; 2]; [1; 0]]%nat = Thrown.
Proof. vm_compute. auto. Qed.

(** ** C182 *)
Lemma onoffs_ok v : forall c, match onoffs v c with
  | Ok l => length l = length c /\ (forall i z o, nth_error c i = Some z -> nth_error l i = Some o -> match o with Some j => (0 < z)%Z /\ nth_error v j = Some z | None => (z <= 0)%Z end) /\
            ~ exists i z, nth_error c i = Some z /\ (0 < z)%Z /\ ~ In z v
  | Thrown => exists i z, nth_error c i = Some z /\ (0 < z)%Z /\ ~ In z v
  | _ => False
  end.
Proof.
  induction c as [|z c IH]; cbn [onoffs].
  - split; [reflexivity|]. split; [intros [|i] z o; discriminate|]. intros (i & z & A & _). destruct i; discriminate A.
  - destruct (Z.ltb_spec 0 z) as [P|P].
    + rewrite onoff_map_ok by exact P. pose proof (id_map_ok v 0 z None) as M. destruct (id_map 0 v z None) as [j|].
      * assert (Mj : nth_error v j = Some z) by (destruct M as [[M _]|[_ M]]; [discriminate M|]; rewrite Nat.sub_0_r in M; exact M).
        destruct (onoffs v c) as [l| | | | | | |]; cbn [bind]; try contradiction.
        -- destruct IH as (A1 & A2 & A3). split; [cbn; lia|]. split.
           ++ intros [|i] y o Hy Ho; cbn in Hy, Ho; [injection Hy as <-; injection Ho as <-; auto|]. exact (A2 i y o Hy Ho).
           ++ intros ([|i] & y & B1 & B2 & B3); cbn in B1; [injection B1 as <-; apply B3; exact (nth_error_In _ _ Mj)|]. apply A3. exists i, y. auto.
        -- destruct IH as (i & y & B). exists (S i), y. exact B.
      * exists 0%nat, z. tauto.
    + destruct (onoffs v c) as [l| | | | | | |]; cbn [bind]; try contradiction.
      * destruct IH as (A1 & A2 & A3). split; [cbn; lia|]. split.
        -- intros [|i] y o Hy Ho; cbn in Hy, Ho; [injection Hy as <-; injection Ho as <-; exact P|]. exact (A2 i y o Hy Ho).
        -- intros ([|i] & y & B1 & B2 & B3); cbn in B1; [injection B1 as <-; lia|]. apply A3. exists i, y. auto.
      * destruct IH as (i & y & B). exists (S i), y. exact B.
Qed.
Theorem C182 : C182_full.
Proof.
  intros c v. cbn [read_onoff]. pose proof (onoffs_ok v c) as M. split.
  - intros r H. destruct (onoffs v c) as [l| | | | | | |]; try discriminate H. cbn [bind] in H. injection H as <-. exists l. tauto.
  - destruct (onoffs v c) as [l| | | | | | |]; cbn [bind]; try contradiction; split; intros H; try discriminate H; tauto.
Qed.
Print Assumptions C182.
Example C182_ex : read_onoff (Some [0; 2; 5]%Z) (Some [5; 0; 2; -1]%Z) = Ok (Some [None; Some 2%nat; Some 0%nat]) /\ read_onoff (Some [0; 3]%Z) (Some [5]%Z) = Thrown.
Proof. vm_compute. auto. Qed.

(** ** C183 *)
(** The own file is written from the point, whether there is one or not. *)
Theorem C183_exact_partial : forall app ampl s m n x, long_enough n x ->
  (ampl = true \/ x <> None \/ n = 0%nat -> exists f, finalize app ampl s m n x = Ok (f, solve_code s (match x with Some _ => true | None => false end))) /\
  (ampl = false -> x = None -> n <> 0%nat -> finalize app ampl s m n x = NullDeref).
Proof.
  intros app ampl s m n x L. unfold finalize. split.
  - intros H. destruct ampl; [rewrite (copy_opt_all n x L); cbn [bind]; eexists; reflexivity|]. destruct x as [l|].
    + rewrite (copy_all n l (L l eq_refl)). cbn [bind]. eexists. reflexivity.
    + destruct H as [H|[H|H]]; [discriminate H|congruence|]. subst n. eexists. reflexivity.
  - intros -> -> N. destruct (Nat.eqb_spec n 0); [contradiction|reflexivity].
Qed.
Print Assumptions C183_exact_partial.
Theorem C183_partial : forall app ampl m n x, long_enough n x -> ampl = true \/ x <> None \/ n = 0%nat ->
  (forall s, exists f z, finalize app ampl s m n x = Ok (f, z) /\ code_ok s z) /\
  forall s x' f z f' z', s = Limit \/ s = User -> long_enough n x' -> finalize app ampl s m n x = Ok (f, z) -> finalize app ampl s m n x' = Ok (f', z') ->
    (z = z' <-> (x = None <-> x' = None)).
Proof.
  intros app ampl m n x L O. split.
  - intros s. destruct (C183_exact_partial app ampl s m n x L) as [A _]. destruct (A O) as (f & B). exists f. eexists. split; [exact B|]. destruct s, x; cbn; lia.
  - intros s x' f z f' z' Hs L' H H'.
    assert (Z1 : forall y g v, long_enough n y -> finalize app ampl s m n y = Ok (g, v) -> v = solve_code s (match y with Some _ => true | None => false end)).
    { intros y g v Ly Hv. destruct (C183_exact_partial app ampl s m n y Ly) as [A B]. destruct ampl; [destruct A as (f0 & A); [auto|]; congruence|].
      destruct y as [l|]; [destruct A as (f0 & A); [right; left; congruence|]; congruence|]. destruct (Nat.eq_dec n 0) as [E|E]; [destruct A as (f0 & A); [auto|]; congruence|].
      rewrite (B eq_refl eq_refl E) in Hv. discriminate Hv. }
    rewrite (Z1 _ _ _ L H), (Z1 _ _ _ L' H'). destruct Hs as [-> | ->], x, x'; cbn; split; intros E; try lia; try (split; congruence); exfalso; intuition congruence.
Qed.
Print Assumptions C183_partial.
(** An infeasible problem with file_solution set to yes. *)
Theorem C183_refuted : ~ C183_full.
Proof.
  intros F. destruct (F "bonmin"%string false 0%nat 1%nat None) as [A _]; [intros a E; discriminate E|]. destruct (A Infeasible) as (f & z & B & _). vm_compute in B. discriminate B.
Qed.
Print Assumptions C183_refuted.
Example C183_ex : finalize "bonmin" true Limit 0 2 None = Ok (sol_file (message "bonmin" Limit) 0 2 None 410, 410%Z) /\ finalize "bonmin" false Success 0 2 (Some [5; 6]) = Ok ([N 0; N 5; N 1; N 6; N (-1)], 3%Z).
Proof. vm_compute. auto. Qed.

(** ** C184 *)
Lemma resize_len n x : length (resize n x) = n.
Proof. unfold resize. rewrite app_length, firstn_length, repeat_length. lia. Qed.
Lemma get_nums_all x : forall old rest, length old = length x -> get_nums old (map N x ++ rest, false) = x.
Proof.
  induction x as [|q x IH]; intros [|o old] rest L; try discriminate L; [reflexivity|]. cbn. f_equal. apply IH. cbn in L. lia.
Qed.
Lemma fail_keeps old : forall l, get_nums old (l, true) = old.
Proof. induction old as [|q old IH]; intros l; [reflexivity|]. cbn. destruct l as [|[]]; f_equal; apply IH. Qed.
Theorem C184_partial : forall m n x old f z, length x = n -> finalize "bonmin" true Success m n (Some x) = Ok (f, z) -> read_sol f old = Ok x.
Proof.
  intros m n x old f z L H. unfold finalize in H. cbn [copy_opt] in H. rewrite (copy_all n x L) in H. cbn [bind] in H. injection H as <- <-.
  unfold read_sol, sol_file, message. cbn [app get_word]. cbn -[get_nums resize map Z.to_nat Qfloor inject_Z Nat.eqb app].
  unfold num. cbn -[get_nums resize map Z.to_nat Qfloor inject_Z Nat.eqb app]. cbn [app get_num]. rewrite Qfloor_Z, Nat2Z.id.
  f_equal. apply get_nums_all. destruct (Nat.eqb_spec (length x) (length old)) as [E|E]; [congruence|]. apply resize_len.
Qed.
Print Assumptions C184_partial.
(** After an interrupted run (or an error) the first number is read as 0 and the others are not read, although the file has the solution; after an
    unbounded relaxation an assert fails. *)
Theorem C184_exact_partial : forall s m n x old f z, long_enough n x -> finalize "bonmin" true s m n x = Ok (f, z) ->
  (s = Infeasible \/ s = Limit \/ s = User \/ s = Error -> read_sol f old = Ok (match old with [] => [] | _ :: old => 0 :: old end)) /\
  (s = Unbounded -> read_sol f old = AssertFail).
Proof.
  intros s m n x old f z L H. unfold finalize in H. rewrite (copy_opt_all n x L) in H. cbn [bind] in H. injection H as <- <-. split.
  - intros [-> | [-> | [-> | ->]]]; unfold read_sol, sol_file, message; cbn [app get_word]; cbn -[get_nums map num app]; cbn [app]; f_equal; destruct old as [|q old]; cbn; f_equal; apply fail_keeps.
  - intros ->. reflexivity.
Qed.
Print Assumptions C184_exact_partial.
Theorem C184_refuted : ~ C184_full.
Proof.
  intros F. assert (E : read_sol (sol_file (message "bonmin" Limit) 1 2 (Some [5; 6]) 421) [0; 0] = Ok [5; 6]).
  { eapply (F Limit 1%nat 2%nat [5; 6] [0; 0]); reflexivity. }
  vm_compute in E. discriminate E.
Qed.
Print Assumptions C184_refuted.
Example C184_ex : read_sol (sol_file (message "bonmin" Success) 1 2 (Some [5; 6]) 3) [0; 0; 0] = Ok [5; 6] /\ read_sol (sol_file (message "bonmin" User) 1 2 (Some [5; 6]) 422) [9; 9] = Ok [0; 9].
Proof. vm_compute. auto. Qed.

(** ** C185 *)
Definition aparts (a k : nat) : list (addr * nat) := map (fun i => (Apart i, i)) (seq a k).
Lemma search_apart r s : forall k a, (a + k <= length (k_names r))%nat -> exists o, search r (aparts a k) s = Ok o /\
  match o with Some i => (a <= i < a + k)%nat /\ nth_error (k_names r) i = Some s | None => forall i, (a <= i < a + k)%nat -> nth_error (k_names r) i <> Some s end.
Proof.
  induction k as [|k IH]; intros a L; cbn [aparts seq map search].
  - exists None. split; [reflexivity|]. intros i Hi. lia.
  - destruct (IH (S a)) as (o & A & B); [lia|]. unfold chars, rd. destruct (nth_error (k_names r) a) as [c|] eqn:Ec; [|apply nth_error_None in Ec; lia].
    cbn [bind]. fold (aparts (S a) k). rewrite A. cbn [bind]. eexists. split; [reflexivity|]. destruct (String.eqb_spec c s) as [->|N].
    + split; [lia|exact Ec].
    + destruct o as [i|]; [destruct B; split; [lia|assumption]|]. intros i Hi. destruct (Nat.eq_dec i a) as [->|Ni]; [congruence|]. apply B. lia.
Qed.
Lemma store_new r s adr j : forall k a, (a + k <= length (k_names r))%nat -> (forall i, (a <= i < a + k)%nat -> nth_error (k_names r) i <> Some s) ->
  store r (aparts a k) s adr j = Ok (aparts a k ++ [(adr, j)]).
Proof.
  induction k as [|k IH]; intros a L N; cbn [aparts seq map store]; [reflexivity|]. unfold chars, rd.
  destruct (nth_error (k_names r) a) as [c|] eqn:Ec; [|apply nth_error_None in Ec; lia]. cbn [bind]. destruct (String.eqb_spec c s) as [->|M]; [exfalso; exact (N a ltac:(lia) Ec)|].
  fold (aparts (S a) k). rewrite (IH (S a)); [reflexivity|lia|]. intros i Hi. apply N. lia.
Qed.
Lemma aparts_S k : aparts 0 (S k) = aparts 0 k ++ [(Apart k, k)].
Proof. unfold aparts. rewrite seq_S, map_app. reflexivity. Qed.
Definition long (sso : nat) (s : string) : Prop := (sso < String.length s)%nat.
Lemma add_long sso : forall l r, Forall (long sso) l -> NoDup (k_names r ++ l) -> k_map r = aparts 0 (length (k_names r)) ->
  exists r', add_names sso l r = Ok r' /\ k_names r' = k_names r ++ l /\ k_map r' = aparts 0 (length (k_names r')).
Proof.
  induction l as [|s l IH]; intros r F D M; cbn [add_names].
  - exists r. rewrite app_nil_r. auto.
  - inversion F as [|? ? F1 F2]; subst. unfold add_name. set (r1 := push s r).
    assert (N1 : k_names r1 = k_names r ++ [s]) by (unfold r1, push; destruct (Nat.eqb _ _); reflexivity).
    assert (M1 : k_map r1 = aparts 0 (length (k_names r))) by (rewrite <- M; unfold r1, push; destruct (Nat.eqb _ _); reflexivity).
    rewrite M1, store_new.
    + cbn [bind]. unfold where_. unfold long in F1. destruct (Nat.leb_spec (String.length s) sso); [lia|]. rewrite <- aparts_S.
      destruct (IH (mkReader (k_names r1) (k_cap r1) (k_gen r1) (aparts 0 (S (length (k_names r)))))) as (r' & A & B & C); [exact F2| | |]; cbn [k_names k_map].
      * rewrite N1, <- app_assoc. exact D.
      * rewrite N1, app_length. cbn. rewrite Nat.add_1_r. reflexivity.
      * exists r'. split; [exact A|]. split; [rewrite B; cbn; rewrite N1, <- app_assoc; reflexivity|exact C].
    + rewrite N1, app_length. cbn. lia.
    + intros i Hi E. rewrite N1 in E. rewrite nth_error_app1 in E by lia. apply NoDup_remove_2 in D. apply D. apply in_or_app. left. exact (nth_error_In _ _ E).
Qed.
Lemma nodup_index (l : list string) i j s : NoDup l -> nth_error l i = Some s -> nth_error l j = Some s -> i = j.
Proof. intros D A B. rewrite NoDup_nth_error in D. apply D; [apply nth_error_Some; congruence|congruence]. Qed.
Lemma index_right r s i : NoDup (k_names r) -> k_map r = aparts 0 (length (k_names r)) -> nth_error (k_names r) i = Some s -> index r s = Ok i.
Proof.
  intros D M E. unfold index. rewrite M. destruct (search_apart r s (length (k_names r)) 0) as (o & A & B); [lia|]. rewrite A. cbn [bind].
  assert (L : (i < length (k_names r))%nat) by (apply nth_error_Some; congruence). destruct o as [j|]; [|exfalso; apply (B i); [lia|exact E]].
  destruct B as [_ B]. rewrite (nodup_index _ i j s D E B). reflexivity.
Qed.
Lemma check_right r : NoDup (k_names r) -> k_map r = aparts 0 (length (k_names r)) -> forall l p, k_names r = p ++ l -> check_names r (length p) l = Ok tt.
Proof.
  intros D M. induction l as [|s l IH]; intros p E; cbn [check_names]; [reflexivity|].
  rewrite (index_right r s (length p) D M); [|rewrite E, nth_error_app2 by lia; rewrite Nat.sub_diag; reflexivity]. cbn [bind]. rewrite Nat.eqb_refl. cbn [chk bind].
  specialize (IH (p ++ [s])). rewrite app_length, Nat.add_1_r in IH. apply IH. rewrite <- app_assoc. exact E.
Qed.
(** Right if all names are too long to be kept inside the string objects. *)
Theorem C185_partial : forall sso file, Forall (long sso) file -> NoDup file -> exists r, read_names sso file = Ok r /\
  forall i s, nth_error file i = Some s -> nth_error (k_names r) i = Some s /\ index r s = Ok i.
Proof.
  intros sso file F D. destruct (add_long sso file r0 F D eq_refl) as (r & A & B & C). cbn in B. exists r. unfold read_names. rewrite A. cbn [bind].
  rewrite <- B in D. pose proof (check_right r D C (k_names r) [] eq_refl) as K. cbn [length] in K. rewrite K. cbn [bind]. split; [reflexivity|].
  intros i s E. rewrite <- B in E. split; [exact E|]. exact (index_right r s i D C E).
Qed.
Print Assumptions C185_partial.
(** With a short first name and a second one the vector moves and the first key is no longer there. *)
Theorem C185_exact_partial : forall sso s t rest, (String.length s <= sso)%nat -> read_names sso (s :: t :: rest) = Dangling.
Proof.
  intros sso s t rest L. unfold read_names. cbn [add_names]. unfold add_name at 1. cbn. unfold where_. destruct (Nat.leb_spec (String.length s) sso); [|lia]. cbn [bind add_names]. reflexivity.
Qed.
Print Assumptions C185_exact_partial.
(** Two names x and y. *)
Theorem C185_refuted : ~ C185_full.
Proof.
  intros F. destruct (F 15%nat ["x"; "y"]%string) as (r & A & _); [lia|repeat constructor; cbn; intuition discriminate|]. vm_compute in A. discriminate A.
Qed.
Print Assumptions C185_refuted.
Example C185_ex : Forall (long 3) ["quantity"; "price"; "stock"]%string /\
  (do r <- read_names 3 ["quantity"; "price"; "stock"]%string; index r "stock") = Ok 2%nat /\ read_names 3 ["quantity"; "price"; "quantity"]%string = AssertFail /\
  (do r <- read_names 15 ["x"]%string; index r "x") = Ok 0%nat.
Proof. split; [repeat constructor; cbn; lia|]. vm_compute. auto. Qed.

(** ** C186 *)
(** The caller's vector stays as it is and the reader's names are replaced by it. *)
Theorem C186_exact_partial : forall r names, snd (copy_names r names) = names /\ k_names (fst (copy_names r names)) = names.
Proof. intros r names. split; reflexivity. Qed.
Print Assumptions C186_exact_partial.
Theorem C186_refuted : ~ C186_full.
Proof. intros F. specialize (F (mkReader ["x"]%string 1 1 []) []). discriminate F. Qed.
Print Assumptions C186_refuted.
Example C186_ex : copy_names (mkReader ["x"]%string 1 1 []) ["a"; "b"]%string = (mkReader ["a"; "b"]%string 1 1 [], ["a"; "b"]%string).
Proof. reflexivity. Qed.

(** ** C187 *)
Theorem C187_partial : forall stub suffix, (2 <= length stub)%nat -> file_name (stub ++ nl) suffix = stub ++ suffix.
Proof.
  intros stub suffix L. unfold file_name, has_ext. rewrite rev_app_distr, app_length. change (length nl) with 3%nat. change (rev nl) with ["l"; "n"; "."]%char. cbn [app]. rewrite !Ascii.eqb_refl.
  destruct (Nat.ltb_spec 4 (length stub + 3)); [|lia]. cbn [andb]. replace (length stub + 3 - 3)%nat with (length stub + 0)%nat by lia.
  rewrite firstn_app_2. cbn [firstn]. rewrite app_nil_r. reflexivity.
Qed.
Print Assumptions C187_partial.
(** Other names keep all of their characters. *)
Theorem C187_other_partial : forall f suffix, (forall stub, f <> stub ++ nl) -> file_name f suffix = f ++ suffix.
Proof.
  intros f suffix N. unfold file_name, has_ext. destruct (rev f) as [|l [|n [|d q]]] eqn:E; rewrite ?andb_false_r; try reflexivity.
  destruct (Ascii.eqb_spec l "l"%char) as [->|]; [|rewrite andb_false_r; reflexivity]. destruct (Ascii.eqb_spec n "n"%char) as [->|]; [|rewrite andb_false_r; reflexivity].
  destruct (Ascii.eqb_spec d "."%char) as [->|]; [|rewrite andb_false_r; reflexivity]. exfalso. apply (N (rev q)). rewrite <- (rev_involutive f), E. cbn. rewrite <- !app_assoc. reflexivity.
Qed.
Print Assumptions C187_other_partial.
(** For the problem a.nl the solution is looked for in a.nl.sol. *)
Theorem C187_refuted : ~ C187_full.
Proof.
  intros F. specialize (F ["a"%char] (list_ascii_of_string ".sol")). assert (H : ["a"%char] <> []) by discriminate. apply F in H. vm_compute in H. discriminate H.
Qed.
Print Assumptions C187_refuted.
Example C187_ex : file_name (list_ascii_of_string "hs071.nl") (list_ascii_of_string ".sol") = list_ascii_of_string "hs071.sol" /\
  file_name (list_ascii_of_string "hs071") (list_ascii_of_string ".col") = list_ascii_of_string "hs071.col" /\
  file_name (list_ascii_of_string "a.nl") (list_ascii_of_string ".sol") = list_ascii_of_string "a.nl.sol".
Proof. vm_compute. auto. Qed.

(** ** C188 *)
Lemma set_lives n : forall l p, p <> Freed -> Forall (fun a : list Q => length a = n) l -> set_all n (map Some l) p = Ok (match rev l with [] => p | a :: _ => Live a end).
Proof.
  induction l as [|a l IH]; intros p Hp F; [reflexivity|]. inversion F as [|? ? F1 F2]; subst. cbn [map set_all].
  assert (E : set_perturb (length a) (Some a) p = Ok (Live a)) by (destruct p; [| |contradiction]; cbn; rewrite copy_all by reflexivity; reflexivity).
  rewrite E. cbn [bind]. rewrite IH; [|discriminate|exact F2]. cbn [rev]. destruct (rev l); reflexivity.
Qed.
Lemma set_nulls n : forall k l, set_all n (repeat None k ++ l) Null = set_all n l Null.
Proof. induction k as [|k IH]; intros l; [reflexivity|]. cbn. apply IH. Qed.
(** Right as long as no array is taken back. *)
Theorem C188_partial : forall n k l, Forall (fun a : list Q => length a = n) l -> let ops := repeat None k ++ map Some l in
  exists p, set_all n ops Null = Ok p /\ get_perturb p = Ok (last ops None).
Proof.
  intros n k l F ops. unfold ops. rewrite set_nulls, (set_lives n l Null ltac:(discriminate) F). eexists. split; [reflexivity|].
  assert (E : last (repeat None k ++ map Some l) None = match rev l with [] => None | a :: _ => Some a end).
  { destruct (rev l) as [|a q] eqn:E; apply (f_equal (@rev _)) in E; rewrite rev_involutive in E; subst l.
    - cbn. rewrite app_nil_r. induction k as [|k IH]; [reflexivity|]. cbn. destruct (repeat None k); [reflexivity|exact IH].
    - cbn [rev]. rewrite map_app, app_assoc. cbn. rewrite last_last. reflexivity. }
  rewrite E. destruct (rev l); reflexivity.
Qed.
Print Assumptions C188_partial.
(** Taking an array back leaves a pointer that may neither be read nor set. *)
Theorem C188_exact_partial : forall n a k l b, Forall (fun a : list Q => length a = n) (l ++ [a]) ->
  exists p, set_all n (repeat None k ++ map Some (l ++ [a]) ++ [None]) Null = Ok p /\ get_perturb p = Dangling /\ set_perturb n b p = Dangling.
Proof.
  intros n a k l b F. rewrite set_nulls.
  assert (A : forall u v p, set_all n (u ++ v) p = do q <- set_all n u p; set_all n v q).
  { induction u as [|x u IH]; intros v p; [reflexivity|]. cbn. destruct (set_perturb n x p); cbn; auto. }
  rewrite A, (set_lives n _ Null ltac:(discriminate) F), rev_app_distr. cbn. exists Freed. auto.
Qed.
Print Assumptions C188_exact_partial.
Theorem C188_refuted : ~ C188_full.
Proof.
  intros F. destruct (F 1%nat [Some [1]; None]) as (p & A & B).
  - repeat constructor; intros a E; try discriminate E. injection E as <-. reflexivity.
  - vm_compute in A. injection A as <-. discriminate B.
Qed.
Print Assumptions C188_refuted.
Example C188_ex : set_all 2 [None; Some [1; 2]; Some [3; 4]] Null = Ok (Live [3; 4]) /\ set_all 2 [Some [1; 2]; None; Some [3; 4]] Null = Dangling.
Proof. vm_compute. auto. Qed.

(** ** C189 *)
Theorem C189 : C189_full.
Proof.
  intros t. induction t as [|v t IH]; intros lo up Ll Lu.
  - exists false. split; [reflexivity|]. split; [intros _ [|j]; discriminate|discriminate].
  - destruct lo as [|l lo]; [discriminate Ll|]. destruct up as [|u up]; [discriminate Lu|]. cbn [general_integer]. cbn in Ll, Lu.
    destruct (IH lo up) as (b & A & B & C); [lia|lia|]. clear IH.
    destruct (Qltb l (- (99 # 100)) || Qltb (99 # 100) l || Qltb u (1 # 100) || Qltb (199 # 100) u)%bool eqn:E.
    + destruct v; cbn [andb].
      3: { exists true. split; [reflexivity|]. split; [discriminate|]. intros _ _ _. exists 0%nat, l, u. cbn. repeat split.
           intros [El Eu]. apply Bool.orb_true_iff in E. destruct E as [E|E]; [apply Bool.orb_true_iff in E; destruct E as [E|E]; [apply Bool.orb_true_iff in E; destruct E as [E|E]|]|];
             apply Qltb_lt in E; lra. }
      all: exists b; split; [exact A|]; split; [intros Eb [|j] l0 u0 z H1 H2 H3; [discriminate H1|exact (B Eb j l0 u0 z H1 H2 H3)]|];
        intros Eb F1 F2; inversion F1; inversion F2; subst; destruct C as (j & l0 & u0 & D); auto; exists (S j), l0, u0; exact D.
    + rewrite andb_false_r. exists b. split; [exact A|]. split.
      * intros Eb [|j] l0 u0 z H1 H2 H3; [|exact (B Eb j l0 u0 z H1 H2 H3)]. cbn in H2, H3. injection H2 as <-. injection H3 as <-. intros G1 G2.
        apply Bool.orb_false_iff in E. destruct E as [E E4]. apply Bool.orb_false_iff in E. destruct E as [E E3]. apply Bool.orb_false_iff in E. destruct E as [E1 E2].
        apply Qltb_ge in E1, E2, E3, E4. assert (Z1 : - (99 # 100) <= inject_Z z) by lra. assert (Z2 : inject_Z z <= 199 # 100) by lra.
        unfold Qle in Z1, Z2. cbn in Z1, Z2. lia.
      * intros Eb F1 F2. inversion F1; inversion F2; subst. destruct C as (j & l0 & u0 & D); auto. exists (S j), l0, u0. exact D.
Qed.
Print Assumptions C189.
Example C189_ex : general_integer [Continuous; Binary; Integer] [0; 0; 0] [9; 1; 1] = Ok false /\ general_integer [Continuous; Binary; Integer] [0; 0; 0] [9; 1; 2] = Ok true.
Proof. vm_compute. auto. Qed.

(** ** C190 *)
Lemma own_file_ok : forall x i, length (own_file i x) = (2 * length x + 1)%nat /\ nth_error (own_file i x) (2 * length x) = Some (N (-1)) /\
  forall k v, nth_error x k = Some v -> nth_error (own_file i x) (2 * k) = Some (N (inject_Z (Z.of_nat (i + k)))) /\ nth_error (own_file i x) (2 * k + 1) = Some (N v).
Proof.
  induction x as [|v x IH]; intros i; cbn [own_file].
  - split; [reflexivity|]. split; [reflexivity|]. intros [|k] v; discriminate.
  - destruct (IH (S i)) as (A & B & C). cbn [length]. replace (2 * S (length x))%nat with (S (S (2 * length x))) by lia. split; [cbn [length]; lia|]. split; [exact B|].
    intros [|k] w E.
    + injection E as <-. rewrite Nat.add_0_r. split; reflexivity.
    + replace (2 * S k)%nat with (S (S (2 * k))) by lia. replace (S (S (2 * k)) + 1)%nat with (S (S (2 * k + 1))) by lia. replace (i + S k)%nat with (S i + k)%nat by lia. exact (C k w E).
Qed.
Theorem C190 : C190_full.
Proof.
  intros app s m n x f z L H. unfold finalize in H. rewrite (copy_all n x L) in H. cbn [bind] in H. injection H as <- <-. rewrite <- L. exact (own_file_ok x 0).
Qed.
Print Assumptions C190.
Example C190_ex : finalize "bonmin" false Limit 1 2 (Some [5; 7]) = Ok ([N 0; N 5; N 1; N 7; N (-1)], 421%Z).
Proof. vm_compute. reflexivity. Qed.
