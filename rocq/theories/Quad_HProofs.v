(** Proofs about the Hessian map of the NLP with quadratic cuts. *)
From Verif Require Import Base Quad_Model Quad_Spec Quad_Proofs.
#[local] Open Scope Q_scope.

(** ** The map *)
Lemma key_eqb_spec a b : reflect (a = b) (key_eqb a b).
Proof.
  destruct a as [a1 a2], b as [b1 b2]. unfold key_eqb; simpl.
  destruct (Nat.eqb_spec a1 b1), (Nat.eqb_spec a2 b2); simpl; constructor; congruence.
Qed.
Lemma key_eqb_refl a : key_eqb a a = true.
Proof. destruct (key_eqb_spec a a); congruence. Qed.

Definition hkeys (H : hmap) := map fst H.

Lemma hfind_in k n H : hfind k H = Some n -> In (k, n) H.
Proof.
  induction H as [|[k' n'] H IH]; simpl; [discriminate|].
  destruct (key_eqb_spec k k') as [->|N]; [intros [= ->]; now left|]. intros E; right; auto.
Qed.
Lemma hfind_none k H : hfind k H = None <-> ~ In k (hkeys H).
Proof.
  induction H as [|[k' n'] H IH]; simpl; [intuition|].
  destruct (key_eqb_spec k k') as [->|N]; [intuition congruence|]. rewrite IH. intuition.
Qed.
Lemma in_hfind k n H : NoDup (hkeys H) -> In (k, n) H -> hfind k H = Some n.
Proof.
  induction H as [|[k' n'] H IH]; simpl; intros ND HI; [contradiction|].
  inversion ND; subst. destruct HI as [[= -> ->]|HI]; [now rewrite key_eqb_refl|].
  destruct (key_eqb_spec k k') as [->|N]; [|auto].
  exfalso. apply H2. apply in_map_iff. exists (k', n). auto.
Qed.

Lemma hinsert_perm k n H : Permutation (hinsert k n H) ((k, n) :: H).
Proof.
  induction H as [|[k' n'] H IH]; simpl; [reflexivity|].
  destruct (key_ltb k k'); [reflexivity|]. rewrite IH. apply perm_swap.
Qed.
Lemma hfind_hinsert k n H k' :
  hfind k H = None -> hfind k' (hinsert k n H) = if key_eqb k' k then Some n else hfind k' H.
Proof.
  induction H as [|[k0 n0] H IH]; simpl; [reflexivity|].
  destruct (key_eqb_spec k k0) as [->|N]; [discriminate|]. intros E.
  destruct (key_ltb k k0); simpl.
  - reflexivity.
  - rewrite (IH E). destruct (key_eqb_spec k' k0) as [->|N']; [|reflexivity].
    destruct (key_eqb_spec k0 k); [congruence|reflexivity].
Qed.
Lemma hset_keys k n H : hkeys (hset k n H) = hkeys H.
Proof.
  induction H as [|[k0 n0] H IH]; simpl; [reflexivity|].
  destruct (key_eqb k k0); simpl; [reflexivity|]. f_equal; exact IH.
Qed.
Lemma hfind_hset k n n0 H k' :
  hfind k H = Some n0 -> hfind k' (hset k n H) = if key_eqb k' k then Some n else hfind k' H.
Proof.
  induction H as [|[k1 n1] H IH]; simpl; [discriminate|].
  destruct (key_eqb_spec k k1) as [->|N].
  - intros _. simpl. destruct (key_eqb_spec k' k1); reflexivity.
  - intros E. simpl. rewrite (IH E). destruct (key_eqb_spec k' k1) as [->|N']; [|reflexivity].
    destruct (key_eqb_spec k1 k); [congruence|reflexivity].
Qed.
Lemma herase_in k H x : In x (hkeys (herase k H)) -> In x (hkeys H).
Proof.
  induction H as [|[k0 n0] H IH]; simpl; [auto|].
  destruct (key_eqb k k0); simpl; intuition.
Qed.
Lemma herase_nodup k H : NoDup (hkeys H) -> NoDup (hkeys (herase k H)).
Proof.
  induction H as [|[k0 n0] H IH]; simpl; intros ND; [constructor|]. inversion ND; subst.
  destruct (key_eqb k k0); simpl; [assumption|]. constructor; [|auto].
  intros C; apply H2, (herase_in k), C.
Qed.
Lemma hfind_herase k H k' :
  NoDup (hkeys H) -> hfind k' (herase k H) = if key_eqb k' k then None else hfind k' H.
Proof.
  induction H as [|[k0 n0] H IH]; simpl; intros ND.
  - destruct (key_eqb k' k); reflexivity.
  - inversion ND; subst. destruct (key_eqb_spec k k0) as [->|N].
    + destruct (key_eqb_spec k' k0) as [e|N']; [|reflexivity]. rewrite e. apply hfind_none; assumption.
    + simpl. rewrite IH by assumption.
      destruct (key_eqb_spec k' k0) as [->|N']; [|reflexivity].
      destruct (key_eqb_spec k0 k); [congruence|reflexivity].
Qed.

(** ** Counting entries *)
Definition kcount (off : nat) (k : hkey) (E : list trip) : nat :=
  length (filter (fun t => key_eqb k (ekey off t)) E).
Lemma kcount_app off k E1 E2 : kcount off k (E1 ++ E2) = (kcount off k E1 + kcount off k E2)%nat.
Proof.
  unfold kcount. induction E1 as [|t E1 IH]; simpl; [reflexivity|].
  destruct (key_eqb k (ekey off t)); simpl; lia.
Qed.
Lemma kcount_cons off k t E :
  kcount off k (t :: E) = ((if key_eqb k (ekey off t) then 1 else 0) + kcount off k E)%nat.
Proof. unfold kcount; simpl. destruct (key_eqb k (ekey off t)); reflexivity. Qed.

Definition Hinv (hb : list hkey) (off : nat) (ents : list trip) (H : hmap) : Prop :=
  NoDup (hkeys H) /\
  forall k, match hfind k H with
            | None => ~ In k hb /\ kcount off k ents = 0%nat
            | Some n =>
                (In k hb /\ n_cnt n = (-1)%Z /\ nth_error hb (n_idx n) = Some k) \/
                (~ In k hb /\ n_cnt n = Z.of_nat (kcount off k ents) /\
                 (0 < kcount off k ents)%nat /\ (length hb <= n_idx n)%nat)
            end.

Lemma Hinv_ext hb off e1 e2 H :
  (forall k, kcount off k e1 = kcount off k e2) -> Hinv hb off e1 H -> Hinv hb off e2 H.
Proof.
  intros EQ (ND & A). split; [exact ND|]. intros k. specialize (A k). rewrite EQ in A. exact A.
Qed.

Definition vit (H : hmap) (it : hiter) (k : hkey) : Prop :=
  fst it = k /\ exists n, hfind k H = Some n /\ n_id n = snd it.
Definition extends (P : hkey -> Prop) (H H' : hmap) : Prop :=
  forall k n, hfind k H = Some n -> P k -> exists n', hfind k H' = Some n' /\ n_id n' = n_id n.

Lemma vit_extends P H H' it k : extends P H H' -> P k -> vit H it k -> vit H' it k.
Proof.
  intros X Pk (A & n & B & C). destruct (X k n B Pk) as (n' & D & E). split; [exact A|].
  exists n'. split; [exact D|congruence].
Qed.

(** A length bound used for fresh positions: all base keys are in the map. *)
Lemma Hinv_length hb off ents H : NoDup hb -> Hinv hb off ents H -> (length hb <= length H)%nat.
Proof.
  intros NB (ND & A). replace (length H) with (length (hkeys H)) by apply map_length.
  apply NoDup_incl_length; [exact NB|]. intros k Hk. specialize (A k).
  destruct (hfind k H) eqn:E.
  - apply hfind_in in E. apply in_map_iff. exists (k, h); auto.
  - tauto.
Qed.

Lemma add_entries_ok hb off E : NoDup hb -> forall ents H nx its H' nx',
  Hinv hb off ents H -> add_entries off E H nx = (its, H', nx') ->
  Hinv hb off (E ++ ents) H' /\ extends (fun _ => True) H H' /\
  Forall2 (fun t it => vit H' it (ekey off t)) E its.
Proof.
  intros NB. induction E as [|t E IH]; intros ents H nx its H' nx' I HA; cbn [add_entries] in HA.
  - injection HA as <- <- <-. split; [exact I|]. split; [|constructor].
    intros k n K _. eauto.
  - cbv zeta in HA. destruct (hfind (ekey off t) H) as [n|] eqn:F.
    + set (H1 := if (n_cnt n =? -1)%Z then H
                 else hset (ekey off t) (mkN (n_idx n) (n_cnt n + 1) (n_id n)) H) in HA.
      destruct (add_entries off E H1 nx) as [[its2 H2] nx2] eqn:R.
      injection HA as <- <- <-.
      assert (I1 : Hinv hb off (t :: ents) H1 /\ extends (fun _ => True) H H1).
      { destruct I as (ND & A). unfold H1. destruct (Z.eqb_spec (n_cnt n) (-1)) as [C|C].
        - split; [|intros k n' K _; eauto]. split; [exact ND|]. intros k. specialize (A k).
          rewrite kcount_cons. destruct (key_eqb_spec k (ekey off t)) as [->|N].
          + rewrite F in A |- *. destruct A as [A|(A1 & A2 & A3 & A4)]; [left; exact A|].
            exfalso. lia.
          + exact A.
        - split.
          + split; [rewrite hset_keys; exact ND|]. intros k. specialize (A k).
            rewrite (hfind_hset _ _ _ _ _ F), kcount_cons.
            destruct (key_eqb_spec k (ekey off t)) as [e|N]; [subst k|exact A].
            rewrite F in A. simpl. destruct A as [(A1 & A2 & A3)|(A1 & A2 & A3 & A4)]; [congruence|].
            right. split; [exact A1|]. split; [lia|]. split; [lia|exact A4].
          + intros k n' K _. rewrite (hfind_hset _ _ _ _ _ F).
            destruct (key_eqb_spec k (ekey off t)) as [->|N]; [|eauto].
            eexists; split; [reflexivity|]. simpl. congruence. }
      destruct I1 as (I1 & X1).
      destruct (IH _ _ _ _ _ _ I1 R) as (I2 & X2 & V2). split; [|split].
      * eapply Hinv_ext; [|exact I2]. intros k. rewrite !kcount_app, !kcount_cons. lia.
      * intros k n' K _. destruct (X1 k n' K Logic.I) as (n1 & K1 & E1).
        destruct (X2 k n1 K1 Logic.I) as (n2 & K2 & E2). exists n2. split; [exact K2|congruence].
      * constructor; [|exact V2]. split; [reflexivity|]. simpl.
        destruct (X1 _ _ F Logic.I) as (n1 & K1 & E1).
        destruct (X2 _ n1 K1 Logic.I) as (n2 & K2 & E2). exists n2. split; [exact K2|congruence].
    + destruct (add_entries off E (hinsert (ekey off t) (mkN (length H) 1 nx) H) (S nx))
        as [[its2 H2] nx2] eqn:R.
      injection HA as <- <- <-.
      assert (I1 : Hinv hb off (t :: ents) (hinsert (ekey off t) (mkN (length H) 1 nx) H)).
      { pose proof (Hinv_length _ _ _ _ NB I) as LL. destruct I as (ND & A). split.
        - assert (P := hinsert_perm (ekey off t) (mkN (length H) 1 nx) H).
          apply (Permutation_map fst) in P. unfold hkeys. rewrite P. simpl. constructor; [|exact ND].
          apply hfind_none. exact F.
        - intros k. specialize (A k). rewrite (hfind_hinsert _ _ _ _ F), kcount_cons.
          destruct (key_eqb_spec k (ekey off t)) as [e|N]; [subst k|exact A].
          rewrite F in A. destruct A as (A1 & A2). rewrite A2. simpl. right.
          split; [exact A1|]. split; [reflexivity|]. split; [lia|exact LL]. }
      assert (X1 : extends (fun _ => True) H (hinsert (ekey off t) (mkN (length H) 1 nx) H)).
      { intros k n' K _. rewrite (hfind_hinsert _ _ _ _ F).
        destruct (key_eqb_spec k (ekey off t)) as [->|N]; [congruence|eauto]. }
      destruct (IH _ _ _ _ _ _ I1 R) as (I2 & X2 & V2). split; [|split].
      * eapply Hinv_ext; [|exact I2]. intros k. rewrite !kcount_app, !kcount_cons. lia.
      * intros k n' K _. destruct (X1 k n' K Logic.I) as (n1 & K1 & E1).
        destruct (X2 k n1 K1 Logic.I) as (n2 & K2 & E2). exists n2. split; [exact K2|congruence].
      * constructor; [|exact V2]. split; [reflexivity|]. simpl.
        destruct (X2 (ekey off t) (mkN (length H) 1 nx)) as (n2 & K2 & E2).
        { rewrite (hfind_hinsert _ _ _ _ F), key_eqb_refl. reflexivity. }
        { exact Logic.I. }
        exists n2. split; [exact K2|exact E2].
Qed.

Definition kept hb off ents (k : hkey) : Prop := In k hb \/ (0 < kcount off k ents)%nat.

Lemma remove_iters_ok hb off E : forall rest H its,
  Hinv hb off (E ++ rest) H ->
  Forall2 (fun t it => vit H it (ekey off t)) E its ->
  exists H', remove_iters E its H = Ok H' /\ Hinv hb off rest H' /\
    extends (kept hb off rest) H H'.
Proof.
  induction E as [|t E IH]; intros rest H its I V; inversion V; subst; simpl.
  - exists H. split; [reflexivity|]. split; [exact I|]. intros k n K _; eauto.
  - rename y into it. rename l' into its'. rename H2 into V1. rename H4 into V2.
    destruct V1 as (Fi & n & F & Id). destruct it as [k0 id]. simpl in Fi, Id. subst k0.
    unfold hderef. cbn [fst snd]. rewrite F, Id, Nat.eqb_refl. cbn [bind].
    set (cnt := if (n_cnt n =? -1)%Z then n_cnt n else (n_cnt n - 1)%Z).
    set (H1 := if (cnt =? 0)%Z then herase (ekey off t) H
               else hset (ekey off t) (mkN (n_idx n) cnt (n_id n)) H).
    assert (I1 : Hinv hb off (E ++ rest) H1 /\ extends (kept hb off (E ++ rest)) H H1).
    { destruct I as (ND & A). assert (At := A (ekey off t)). rewrite F in At.
      cbn [app] in At. rewrite kcount_cons, key_eqb_refl in At.
      unfold H1, cnt. destruct At as [(B1 & B2 & B3)|(B1 & B2 & B3 & B4)].
      - rewrite B2. cbn [Z.eqb Pos.eqb]. split.
        + split; [rewrite hset_keys; exact ND|]. intros k. specialize (A k).
          rewrite (hfind_hset _ _ _ _ _ F). cbn [app] in A. rewrite kcount_cons in A.
          destruct (key_eqb_spec k (ekey off t)) as [e|N]; [subst k|exact A]. left. simpl. auto.
        + intros k n' K _. rewrite (hfind_hset _ _ _ _ _ F).
          destruct (key_eqb_spec k (ekey off t)) as [->|N]; [|eauto].
          eexists; split; [reflexivity|]. simpl. congruence.
      - destruct (Z.eqb_spec (n_cnt n) (-1)) as [C|C]; [lia|].
        destruct (Z.eqb_spec (n_cnt n - 1) 0) as [D|D].
        + assert (Z0 : kcount off (ekey off t) (E ++ rest) = 0%nat) by lia. split.
          * split; [apply herase_nodup, ND|]. intros k. specialize (A k).
            rewrite (hfind_herase _ _ _ ND). cbn [app] in A. rewrite kcount_cons in A.
            destruct (key_eqb_spec k (ekey off t)) as [e|N]; [subst k|exact A]. auto.
          * intros k n' K Kk. rewrite (hfind_herase _ _ _ ND).
            destruct (key_eqb_spec k (ekey off t)) as [->|N]; [|eauto].
            exfalso. destruct Kk as [Kk|Kk]; [contradiction|lia].
        + split.
          * split; [rewrite hset_keys; exact ND|]. intros k. specialize (A k).
            rewrite (hfind_hset _ _ _ _ _ F). cbn [app] in A. rewrite kcount_cons in A.
            destruct (key_eqb_spec k (ekey off t)) as [e|N]; [subst k|exact A]. right. simpl.
            split; [exact B1|]. split; [lia|]. split; [lia|exact B4].
          * intros k n' K _. rewrite (hfind_hset _ _ _ _ _ F).
            destruct (key_eqb_spec k (ekey off t)) as [->|N]; [|eauto].
            eexists; split; [reflexivity|]. simpl. congruence. }
    destruct I1 as (I1 & X1).
    destruct (IH rest H1 its' I1) as (H' & R & I' & X').
    { assert (ALL : Forall (fun u => (0 < kcount off (ekey off u) (E ++ rest))%nat) E).
      { apply Forall_forall. intros u Hu. rewrite kcount_app. unfold kcount at 1.
        assert (In u (filter (fun t0 => key_eqb (ekey off u) (ekey off t0)) E))
          by (apply filter_In; split; [exact Hu|apply key_eqb_refl]).
        destruct (filter (fun t0 => key_eqb (ekey off u) (ekey off t0)) E); [contradiction|simpl; lia]. }
      clear - V2 X1 ALL. revert ALL V2. generalize its' as is. 
      set (P := kept hb off (E ++ rest)) in *.
      assert (G : forall E0 is, Forall (fun u => (0 < kcount off (ekey off u) (E ++ rest))%nat) E0 ->
         Forall2 (fun t0 it => vit H it (ekey off t0)) E0 is ->
         Forall2 (fun t0 it => vit H1 it (ekey off t0)) E0 is).
      { intros E0 is FA F2. induction F2; constructor.
        - inversion FA; subst. eapply vit_extends; [exact X1| |exact H0]. right; assumption.
        - apply IHF2. inversion FA; assumption. }
      intros is ALL V2. apply G; assumption. }
    exists H'. split; [exact R|]. split; [exact I'|].
    intros k n' K Kk. destruct (X1 k n' K) as (n1 & K1 & E1).
    { destruct Kk as [Kk|Kk]; [left; exact Kk|right; rewrite kcount_app; lia]. }
    destruct (X' k n1 K1 Kk) as (n2 & K2 & E2). exists n2. split; [exact K2|congruence].
Qed.

(** ** Loading the original pattern *)
Lemma load_base_ok all ks : forall pre H,
  all = pre ++ ks -> NoDup all -> Hinv pre 0 [] H ->
  exists H', load_base (length pre) ks H = Ok H' /\ Hinv all 0 [] H'.
Proof.
  induction ks as [|k ks IH]; intros pre H EQ ND I; simpl.
  - rewrite app_nil_r in EQ. subst. eauto.
  - assert (NI : ~ In k pre).
    { subst all. apply NoDup_remove_2 in ND. intros C; apply ND, in_or_app; now left. }
    destruct I as (NDH & A).
    destruct (hfind k H) as [n|] eqn:F.
    + exfalso. specialize (A k). rewrite F in A. destruct A as [(A1 & _)|(_ & _ & A3 & _)]; [contradiction|].
      unfold kcount in A3; simpl in A3; lia.
    + assert (LN : S (length pre) = length (pre ++ [k])) by (rewrite app_length; simpl; lia).
      rewrite LN. apply (IH (pre ++ [k])).
      * subst all. rewrite <- app_assoc. reflexivity.
      * exact ND.
      * split.
        -- assert (P := hinsert_perm k (mkN (length pre) (-1) (length pre)) H).
           apply (Permutation_map fst) in P. unfold hkeys. rewrite P. simpl. constructor; [|exact NDH].
           apply hfind_none. exact F.
        -- intros k'. specialize (A k'). rewrite (hfind_hinsert _ _ _ _ F).
           destruct (key_eqb_spec k' k) as [->|N].
           ++ left. simpl. split; [apply in_or_app; right; now left|]. split; [reflexivity|].
              rewrite nth_error_app2, Nat.sub_diag by lia. reflexivity.
           ++ destruct (hfind k' H) as [n|].
              ** destruct A as [(A1 & A2 & A3)|(A1 & A2 & A3 & A4)].
                 --- left. split; [apply in_or_app; now left|]. split; [exact A2|].
                     rewrite nth_error_app1; [exact A3|]. apply nth_error_Some. congruence.
                 --- unfold kcount in A3; simpl in A3; lia.
              ** destruct A as (A1 & A2). split; [|exact A2].
                 intros C; apply in_app_or in C. simpl in C. intuition congruence.
Qed.
Lemma load_base_fail ks : forall i H H', load_base i ks H = Ok H' ->
  NoDup ks /\ (forall k, In k ks -> hfind k H = None).
Proof.
  induction ks as [|k ks IH]; intros i H H' E; simpl in E.
  - split; [constructor|]. intros k [].
  - destruct (hfind k H) eqn:F; [discriminate|]. apply IH in E. destruct E as (A & B). split.
    + constructor; [|exact A]. intros C. specialize (B k C).
      rewrite (hfind_hinsert _ _ _ _ F), key_eqb_refl in B. discriminate.
    + intros k' [<-|C]; [exact F|]. specialize (B k' C). rewrite (hfind_hinsert _ _ _ _ F) in B.
      destruct (key_eqb k' k); [discriminate|exact B].
Qed.
Lemma Hinv_off hb off off' H : Hinv hb off [] H -> Hinv hb off' [] H.
Proof. intros (ND & A). split; [exact ND|]. exact A. Qed.
Lemma load_base_all hb : NoDup hb ->
  exists H, load_base 0 hb [] = Ok H /\ forall off, Hinv hb off [] H.
Proof.
  intros ND. destruct (load_base_ok hb hb [] [] eq_refl ND) as (H & E & I).
  - split; [constructor|]. intros k; simpl. auto.
  - exists H. split; [exact E|]. intros off. eapply Hinv_off, I.
Qed.
