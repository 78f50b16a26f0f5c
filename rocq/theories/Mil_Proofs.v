(** Lemmas for the heuristics that solve a MILP: packing a sorted Jacobian by columns. *)
From Verif Require Import Base Arr Nlp Oad_Model Nls_Model Nls_Spec Nls_Proofs Div_Model Div_Spec Div_Proofs Div_Proofs2 Str_Proofs Mil_Model Mil_Spec.
#[local] Open Scope Q_scope.

(** ** Lists sorted by a key *)
Section Key.
Context {T : Type} (key : T -> nat).
Notation is c := (fun t => Nat.eqb (key t) c).
Notation less c := (fun t => Nat.ltb (key t) c).
Fixpoint incr (l : list T) : Prop := match l with [] => True | t :: l => Forall (fun u => key t <= key u)%nat l /\ incr l end.
Lemma incr_app l1 l2 : incr (l1 ++ l2) -> incr l1 /\ incr l2 /\ Forall (fun t => Forall (fun u => key t <= key u)%nat l2) l1.
Proof.
  induction l1 as [|t l1 IH]; cbn [app incr]; [intros H; repeat split; [exact H|constructor]|].
  intros (F & I1). destruct (IH I1) as (A & B & C). apply Forall_app in F. repeat split; try tauto. constructor; tauto.
Qed.
Lemma incr_segment c : forall l, incr l ->
  firstn (length (filter (is c) l)) (skipn (length (filter (less c) l)) l) = filter (is c) l.
Proof.
  induction l as [|t l IH]; intros I0; [reflexivity|]. destruct I0 as (F & I1). cbn [filter].
  destruct (Nat.ltb_spec (key t) c) as [H|H]; destruct (Nat.eqb_spec (key t) c) as [E|E]; try lia; cbn [length skipn].
  - apply IH, I1.
  - assert (Z : filter (less c) l = []).
    { apply filter_nil. eapply Forall_impl; [|exact F]. intros u U. cbn beta in *. apply Nat.ltb_ge. lia. }
    specialize (IH I1). rewrite Z in *. cbn [length skipn firstn] in *. f_equal. exact IH.
  - assert (Z : filter (is c) l = []).
    { apply filter_nil. eapply Forall_impl; [|exact F]. intros u U. cbn beta in *. apply Nat.eqb_neq. lia. }
    rewrite Z. reflexivity.
Qed.
Lemma incr_filter (f : T -> bool) l : incr l -> incr (filter f l).
Proof.
  induction l as [|t l IH]; cbn [filter incr]; [auto|]. intros (F & I1). destruct (f t); [|exact (IH I1)].
  split; [|exact (IH I1)]. apply Forall_forall. intros u U. apply filter_In in U. rewrite Forall_forall in F. apply F. tauto.
Qed.
End Key.

(** ** The packing loops *)
(** An entry: column, row (None when it is skipped), value. *)
Notation ent := (nat * option nat * Q)%type.
Definition tcol (t : ent) := fst (fst t).
Definition trow (t : ent) := snd (fst t).
Definition keep (t : ent) : bool := match trow t with Some _ => true | None => false end.
Definition krow (t : ent) : nat := match trow t with Some r => r | None => 0%nat end.
Definition kept (l : list ent) := filter keep l.
Notation isc c := (fun t => Nat.eqb (tcol t) c).
Notation lessc c := (fun t => Nat.ltb (tcol t) c).
Definition packed (n : nat) (pre : list ent) (ini : option nat) (A : cmat) : Prop :=
  c_row A = map krow (kept pre) /\ length (c_start A) = n /\ length (c_len A) = n /\
  match ini with None => pre = [] | Some q => In q (map tcol pre) /\ Forall (fun t => tcol t <= q)%nat pre end /\
  forall c, (c < n)%nat -> nth c (c_len A) 0%nat = length (filter (isc c) (kept pre)) /\
    (In c (map tcol pre) -> nth c (c_start A) 0%nat = length (filter (lessc c) (kept pre))).
Lemma filter_all {A} (f : A -> bool) l : Forall (fun a => f a = true) l -> filter f l = l.
Proof. induction 1 as [|a l H _ IH]; [reflexivity|]. cbn [filter]. rewrite H, IH. reflexivity. Qed.
Lemma packed_step n pre ini A t A' : packed n pre ini A -> (tcol t < n)%nat -> Forall (fun u => tcol u <= tcol t)%nat pre ->
  let new := negb match ini with Some q => Nat.eqb (tcol t) q | None => false end in
  length (c_start A') = n -> length (c_len A') = n ->
  c_row A' = c_row A ++ (if keep t then [krow t] else []) ->
  (forall d, nth d (c_start A') 0%nat = if (new && Nat.eqb d (tcol t))%bool then length (c_row A) else nth d (c_start A) 0%nat) ->
  (forall d, nth d (c_len A') 0%nat = if Nat.eqb d (tcol t) then ((if new then 0 else nth d (c_len A) 0) + (if keep t then 1 else 0))%nat else nth d (c_len A) 0%nat) ->
  packed n (pre ++ [t]) (Some (tcol t)) A'.
Proof.
  intros (R & LS & LL & II & C) Ht F new LS' LL' R' ES EL.
  assert (NW : new = true -> ~ In (tcol t) (map tcol pre)).
  { intros E H. unfold new in E. destruct ini as [q|].
    - destruct II as (I1 & I2). cbn [negb] in E. destruct (Nat.eqb_spec (tcol t) q) as [X|X]; [discriminate|].
      apply in_map_iff in I1. destruct I1 as (u & U1 & U2). rewrite Forall_forall in F. specialize (F _ U2).
      apply in_map_iff in H. destruct H as (w & W1 & W2). rewrite Forall_forall in I2. specialize (I2 _ W2). lia.
    - subst pre. exact H. }
  assert (OL : new = false -> In (tcol t) (map tcol pre)).
  { intros E. unfold new in E. destruct ini as [q|]; [|discriminate]. destruct (Nat.eqb_spec (tcol t) q) as [X|X]; [|discriminate]. rewrite X. tauto. }
  assert (KP : kept (pre ++ [t]) = kept pre ++ if keep t then [t] else []).
  { unfold kept. rewrite filter_app. cbn [filter]. destruct (keep t); reflexivity. }
  assert (KF : Forall (fun u => tcol u <= tcol t)%nat (kept pre)).
  { apply Forall_forall. intros u U. apply filter_In in U. rewrite Forall_forall in F. apply F. tauto. }
  split; [|split; [exact LS'|split; [exact LL'|split]]].
  - rewrite R', KP, map_app, R. destruct (keep t); reflexivity.
  - split; [rewrite map_app; apply in_or_app; right; left; reflexivity|]. apply Forall_app. split; [exact F|]. constructor; [lia|constructor].
  - intros c Hc. destruct (C c Hc) as (C1 & C2). rewrite KP, !filter_app, !app_length. split.
    + rewrite EL. destruct (Nat.eqb_spec c (tcol t)) as [->|X].
      * assert (Z : (if new then 0 else nth (tcol t) (c_len A) 0)%nat = length (filter (isc (tcol t)) (kept pre))).
        { destruct new eqn:N; [|exact C1]. rewrite filter_nil; [reflexivity|]. apply Forall_forall. intros u U. apply filter_In in U.
          apply Nat.eqb_neq. intros W. apply (NW eq_refl). rewrite <- W. apply in_map. tauto. }
        rewrite Z. destruct (keep t); cbn [filter length]; [rewrite Nat.eqb_refl; reflexivity|lia].
      * rewrite C1. destruct (keep t); cbn [filter length]; [|lia]. destruct (Nat.eqb_spec (tcol t) c); [congruence|]. cbn [length]. lia.
    + intros Hin. rewrite ES.
      assert (Z : length (filter (lessc c) (if keep t then [t] else [])) = 0%nat \/ (tcol t < c)%nat).
      { destruct (keep t); [|left; reflexivity]. cbn [filter]. destruct (Nat.ltb_spec (tcol t) c); [right; assumption|left; reflexivity]. }
      rewrite map_app in Hin. apply in_app_or in Hin.
      assert (LE : (c <= tcol t)%nat).
      { destruct Hin as [H|[H|[]]]; [|lia]. apply in_map_iff in H. destruct H as (u & <- & U). rewrite Forall_forall in F. exact (F _ U). }
      destruct Z as [Z|Z]; [|lia]. rewrite Z, Nat.add_0_r.
      destruct (new && Nat.eqb c (tcol t))%bool eqn:B.
      * apply andb_true_iff in B. destruct B as (B1 & B2). apply Nat.eqb_eq in B2. subst c. rewrite R, map_length. rewrite filter_all; [reflexivity|].
        apply Forall_forall. intros u U. apply Nat.ltb_lt. rewrite Forall_forall in KF. specialize (KF _ U).
        assert (tcol u <> tcol t); [|lia]. intros W. apply (NW B1). rewrite <- W. apply in_map. apply filter_In in U. tauto.
      * apply C2. destruct Hin as [H|[H|[]]]; [exact H|]. apply andb_false_iff in B. rewrite <- H. destruct B as [B|B]; [exact (OL B)|].
        apply Nat.eqb_neq in B. congruence.
Qed.
Lemma nth_repeat_nat (a : nat) k i : nth i (repeat a k) a = a.
Proof. revert i; induction k as [|k IH]; intros [|i]; cbn; auto. Qed.
Lemma packed_nil n : packed n [] None (mkCmat (repeat 0%nat n) (repeat 0%nat n) [] []).
Proof.
  split; [reflexivity|]. cbn [c_start c_len c_row]. split; [apply repeat_length|]. split; [apply repeat_length|]. split; [reflexivity|].
  intros c Hc. split; [apply nth_repeat_nat|]. intros [].
Qed.
Lemma lset_fine {A} i (a : A) l d : (i < length l)%nat -> exists l', lset i a l = Ok l' /\ length l' = length l /\ forall j, nth j l' d = if Nat.eqb j i then a else nth j l d.
Proof. intros H. rewrite (lset_ok _ _ _ H). eexists. split; [reflexivity|]. split; [apply upd_length, H|]. intros j. apply upd_nth, H. Qed.

(** The entries the loops read. *)
Fixpoint ents (st : list (nat * nat)) (off : nat) (cidx : list (option nat)) (vals : list Q) (i : nat) (perm : list nat) : list ent :=
  match perm with
  | [] => []
  | s :: perm => ((snd (nth s st (0, 0)%nat) - off)%nat, nth (fst (nth s st (0, 0)%nat) - off) cidx None, nth i vals 0) :: ents st off cidx vals (S i) perm
  end.
Lemma mr_loop_ok n m st off cidx jac : length cidx = m ->
  Forall (fun rc => off <= fst rc /\ fst rc < m + off /\ off <= snd rc /\ snd rc < n + off)%nat st ->
  forall perm i pre ini A, Forall (fun s => (s < length st)%nat) perm -> (i + length perm <= length jac)%nat ->
  packed n pre ini A -> c_val A = map snd (kept pre) -> incr tcol (pre ++ ents st off cidx jac i perm) ->
  exists A' ini', mr_loop st off cidx jac i perm ini A = Ok A' /\ packed n (pre ++ ents st off cidx jac i perm) ini' A' /\
    c_val A' = map snd (kept (pre ++ ents st off cidx jac i perm)).
Proof.
  intros LC FS. induction perm as [|s perm IH]; intros i pre ini A FP Hi PK EV IN.
  - cbn [ents mr_loop]. rewrite app_nil_r. eauto.
  - apply Forall_cons_iff in FP. destruct FP as (Hs & FP). cbn [length] in Hi. cbn [mr_loop ents] in *.
    rewrite (rd_fine s st (0, 0)%nat) by exact Hs. cbn [bind]. set (rc := nth s st (0, 0)%nat) in *.
    assert (RG : (off <= fst rc /\ fst rc < m + off /\ off <= snd rc /\ snd rc < n + off)%nat).
    { rewrite Forall_forall in FS. apply FS. unfold rc. apply nth_In, Hs. }
    rewrite (rd_fine (fst rc - off) cidx None) by lia. cbn [bind].
    set (t := ((snd rc - off)%nat, nth (fst rc - off) cidx None, nth i jac 0) : ent) in *.
    change (snd rc - off)%nat with (tcol t). change (nth (fst rc - off) cidx None) with (trow t).
    assert (Ht : (tcol t < n)%nat) by (unfold t, tcol; cbn [fst]; lia).
    destruct PK as (R & LS & LL & II & C).
    set (new := negb match ini with Some q => Nat.eqb (tcol t) q | None => false end).
    assert (exists A1, (if match ini with Some q => Nat.eqb (tcol t) q | None => false end then Ok A
               else do a <- lset (tcol t) (length (c_row A)) (c_start A);
                    do l <- lset (tcol t) 0%nat (c_len A);
                    Ok (mkCmat a l (c_row A) (c_val A))) = Ok A1 /\ c_row A1 = c_row A /\ c_val A1 = c_val A /\
             length (c_start A1) = n /\ length (c_len A1) = n /\
             (forall d, nth d (c_start A1) 0%nat = if (new && Nat.eqb d (tcol t))%bool then length (c_row A) else nth d (c_start A) 0%nat) /\
             (forall d, nth d (c_len A1) 0%nat = if (new && Nat.eqb d (tcol t))%bool then 0%nat else nth d (c_len A) 0%nat)) as (A1 & E1 & R1 & V1 & S1 & L1 & ES & EL).
    { destruct (match ini with Some q => Nat.eqb (tcol t) q | None => false end); unfold new; cbn [negb andb].
      - exists A. repeat split; assumption.
      - destruct (lset_fine (tcol t) (length (c_row A)) (c_start A) 0%nat) as (a & Ea & La & Ga); [lia|].
        destruct (lset_fine (tcol t) 0%nat (c_len A) 0%nat) as (l & El & Ll & Gl); [lia|].
        rewrite Ea. cbn [bind]. rewrite El. cbn [bind]. eexists. split; [reflexivity|]. cbn [c_row c_val c_start c_len].
        repeat split; try lia; assumption. }
    rewrite E1. cbn [bind].
    assert (LE : Forall (fun u => tcol u <= tcol t)%nat pre).
    { apply incr_app in IN. destruct IN as (_ & _ & IN). eapply Forall_impl; [|exact IN]. intros u U. cbn beta in U. apply Forall_inv in U. exact U. }
    assert (AS : pre ++ t :: ents st off cidx jac (S i) perm = (pre ++ [t]) ++ ents st off cidx jac (S i) perm) by (rewrite <- app_assoc; reflexivity).
    rewrite AS in IN |- *.
    destruct (trow t) as [r|] eqn:TR.
    + rewrite (rd_fine (tcol t) (c_len A1) 0%nat) by lia. cbn [bind].
      destruct (lset_fine (tcol t) (S (nth (tcol t) (c_len A1) 0%nat)) (c_len A1) 0%nat) as (l & El & Ll & Gl); [lia|].
      rewrite El. cbn [bind]. rewrite (rd_fine i jac 0) by lia. cbn [bind].
      apply IH; [exact FP|lia| | |exact IN].
      * eapply packed_step; [exact (conj R (conj LS (conj LL (conj II C))))|exact Ht|exact LE|..]; cbn [c_start c_len c_row].
        -- exact S1.
        -- lia.
        -- rewrite R1. unfold keep, krow. rewrite TR. reflexivity.
        -- exact ES.
        -- intros d. rewrite Gl. unfold keep. rewrite TR. fold new. destruct (Nat.eqb_spec d (tcol t)) as [->|X].
           ++ rewrite EL, Nat.eqb_refl, andb_true_r. destruct new; lia.
           ++ rewrite EL. rewrite (proj2 (Nat.eqb_neq _ _) X), andb_false_r. reflexivity.
      * cbn [c_val]. rewrite V1, EV. unfold kept. rewrite filter_app, map_app. cbn [filter]. unfold keep at 3. rewrite TR. reflexivity.
    + apply IH; [exact FP|lia| | |exact IN].
      * eapply packed_step; [exact (conj R (conj LS (conj LL (conj II C))))|exact Ht|exact LE|..].
        -- exact S1.
        -- exact L1.
        -- rewrite R1. unfold keep. rewrite TR. rewrite app_nil_r. reflexivity.
        -- exact ES.
        -- intros d. rewrite EL. unfold keep. rewrite TR. fold new. destruct (Nat.eqb_spec d (tcol t)) as [->|X].
           ++ rewrite andb_true_r. destruct new; lia.
           ++ rewrite andb_false_r. reflexivity.
      * rewrite V1, EV. unfold kept. rewrite filter_app. cbn [filter]. unfold keep at 3. rewrite TR, app_nil_r. reflexivity.
Qed.
(** What a column of the packed matrix contains. *)
Lemma packed_column n l ini A c : packed n l ini A -> c_val A = map snd (kept l) -> incr tcol l -> (c < n)%nat ->
  column A c = map (fun t => (krow t, snd t)) (filter (isc c) (kept l)).
Proof.
  intros (R & LS & LL & II & C) EV IN Hc. unfold column. destruct (C c Hc) as (C1 & C2).
  assert (CM : combine (c_row A) (c_val A) = map (fun t => (krow t, snd t)) (kept l)).
  { rewrite R, EV. generalize (kept l). induction l0 as [|t l0 IH]; [reflexivity|]. cbn [map combine]. rewrite IH. reflexivity. }
  rewrite CM, C1. destruct (filter (isc c) (kept l)) as [|t0 r0] eqn:EF; [reflexivity|]. rewrite <- EF.
  rewrite C2.
  - rewrite skipn_map, firstn_map. f_equal. apply (incr_segment tcol c). apply incr_filter, IN.
  - assert (H : In t0 (filter (isc c) (kept l))) by (rewrite EF; left; reflexivity). apply filter_In in H. destruct H as (H1 & H2).
    apply Nat.eqb_eq in H2. apply filter_In in H1. rewrite <- H2. apply in_map. tauto.
Qed.
