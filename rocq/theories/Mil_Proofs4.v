(** Lemmas for the heuristics that solve a MILP: the MILP of HeuristicDiveMIP. *)
From Verif Require Import Base Arr Nlp Oad_Model Nls_Model Nls_Spec Nls_Proofs Div_Model Div_Spec Div_Proofs Div_Proofs2 Str_Proofs Mil_Model Mil_Spec Mil_Proofs Mil_Proofs2 Mil_Proofs3.
#[local] Open Scope Q_scope.

(** ** Packing *)
Section Dm.
Variables (st : list (nat * nat)) (off n m : nat).
Hypothesis FS : Forall (fun rc => off <= fst rc /\ fst rc < m + off /\ off <= snd rc /\ snd rc < n + off)%nat st.
Notation ei s := (nth s st (0, 0)%nat).
Definition kc (s : nat) : nat := (snd (ei s) - off)%nat.
Definition kr (s : nat) : nat := (fst (ei s) - off)%nat.
Notation cidx := (map (@Some nat) (seq 0 m)).
Lemma range s : (s < length st)%nat -> (off <= fst (ei s) /\ fst (ei s) < m + off /\ off <= snd (ei s) /\ snd (ei s) < n + off)%nat.
Proof. intros H. rewrite Forall_forall in FS. apply FS, nth_In, H. Qed.
Lemma cidx_nth r : (r < m)%nat -> nth r cidx None = Some r.
Proof. intros H. rewrite (nth_indep _ None (Some 0%nat)) by (rewrite map_length, seq_length; exact H). rewrite map_nth, seq_nth by exact H. reflexivity. Qed.
Lemma dm_loop_ok : forall perm i pre ini A, Forall (fun s => (s < length st)%nat) perm ->
  packed n pre (option_map (fun q => (q - off)%nat) ini) A -> match ini with Some q => (off <= q)%nat | None => True end ->
  incr tcol (pre ++ ents st off cidx [] i perm) ->
  exists A' ini', dm_loop st off perm ini A = Ok A' /\ packed n (pre ++ ents st off cidx [] i perm) ini' A'.
Proof.
  induction perm as [|s perm IH]; intros i pre ini A FP PK IO IN.
  - cbn [ents dm_loop]. rewrite app_nil_r. eauto.
  - apply Forall_cons_iff in FP. destruct FP as (Hs & FP). cbn [dm_loop ents] in *.
    rewrite (rd_fine s st (0, 0)%nat) by exact Hs. cbn [bind]. pose proof (range s Hs) as RG. set (rc := ei s) in *.
    set (t := ((snd rc - off)%nat, nth (fst rc - off) cidx None, nth i (@nil Q) 0) : ent) in *.
    change (snd rc - off)%nat with (tcol t).
    assert (Ht : (tcol t < n)%nat) by (unfold t, tcol; cbn [fst]; lia).
    assert (TR : trow t = Some (fst rc - off)%nat) by (unfold t, trow; cbn [fst snd]; apply cidx_nth; lia).
    assert (LE : Forall (fun u => tcol u <= tcol t)%nat pre).
    { apply incr_app in IN. destruct IN as (_ & _ & IN). eapply Forall_impl; [|exact IN]. intros u U. cbn beta in U. apply Forall_inv in U. exact U. }
    assert (AS : pre ++ t :: ents st off cidx [] (S i) perm = (pre ++ [t]) ++ ents st off cidx [] (S i) perm) by (rewrite <- app_assoc; reflexivity).
    rewrite AS in IN |- *.
    assert (SAME : match ini with Some q => Nat.eqb (snd rc) q | None => false end = match option_map (fun q => (q - off)%nat) ini with Some q => Nat.eqb (tcol t) q | None => false end).
    { destruct ini as [q|]; [|reflexivity]. cbn [option_map]. unfold t, tcol. cbn [fst]. destruct (Nat.eqb_spec (snd rc) q), (Nat.eqb_spec (snd rc - off) (q - off)); try reflexivity; lia. }
    rewrite SAME. pose proof PK as (R & LS & LL & II & C).
    set (old := match option_map (fun q => (q - off)%nat) ini with Some q => Nat.eqb (tcol t) q | None => false end) in *.
    assert (exists A1, (if old then do c <- rd (tcol t) (c_len A); do l <- lset (tcol t) (S c) (c_len A); Ok (mkCmat (c_start A) l (c_row A) (c_val A))
               else do a <- lset (tcol t) (length (c_row A)) (c_start A); do l <- lset (tcol t) 1%nat (c_len A); Ok (mkCmat a l (c_row A) (c_val A))) = Ok A1 /\
             c_row A1 = c_row A /\ length (c_start A1) = n /\ length (c_len A1) = n /\
             (forall d, nth d (c_start A1) 0%nat = if (negb old && Nat.eqb d (tcol t))%bool then length (c_row A) else nth d (c_start A) 0%nat) /\
             (forall d, nth d (c_len A1) 0%nat = if Nat.eqb d (tcol t) then ((if negb old then 0 else nth d (c_len A) 0) + 1)%nat else nth d (c_len A) 0%nat)) as (A1 & E1 & R1 & S1 & L1 & ES & EL).
    { destruct old; cbn [negb andb].
      - rewrite (rd_fine (tcol t) (c_len A) 0%nat) by lia. cbn [bind].
        destruct (lset_fine (tcol t) (S (nth (tcol t) (c_len A) 0%nat)) (c_len A) 0%nat) as (l & El & Ll & Gl); [lia|].
        rewrite El. cbn [bind]. eexists. split; [reflexivity|]. cbn [c_row c_val c_start c_len].
        split; [reflexivity|]. split; [exact LS|]. split; [lia|]. split; [reflexivity|]. intros d. rewrite Gl. destruct (Nat.eqb_spec d (tcol t)) as [->|]; [lia|reflexivity].
      - destruct (lset_fine (tcol t) (length (c_row A)) (c_start A) 0%nat) as (a & Ea & La & Ga); [lia|].
        destruct (lset_fine (tcol t) 1%nat (c_len A) 0%nat) as (l & El & Ll & Gl); [lia|].
        rewrite Ea. cbn [bind]. rewrite El. cbn [bind]. eexists. split; [reflexivity|]. cbn [c_row c_val c_start c_len].
        split; [reflexivity|]. split; [lia|]. split; [lia|]. split; [exact Ga|exact Gl]. }
    rewrite E1. cbn [bind].
    destruct (IH (S i) (pre ++ [t]) (Some (snd rc)) (mkCmat (c_start A1) (c_len A1) (c_row A1 ++ [(fst rc - off)%nat]) [])) as (A' & ini' & EA & PK'); [exact FP| |lia|exact IN|eauto].
    cbn [option_map]. change (snd rc - off)%nat with (tcol t). eapply packed_step; [exact PK|exact Ht|exact LE|..]; cbn [c_start c_len c_row].
    + exact S1.
    + exact L1.
    + rewrite R1. unfold keep, krow. rewrite TR. reflexivity.
    + exact ES.
    + intros d. rewrite EL. unfold keep. rewrite TR. reflexivity.
Qed.
Definition gt (s : nat) : ent := (kc s, nth (kr s) cidx None, 0).
Lemma ents_gt perm i : ents st off cidx [] i perm = map gt perm.
Proof. revert i; induction perm as [|s perm IH]; intros i; [reflexivity|]. cbn [ents map]. rewrite IH. f_equal. unfold gt, kc, kr. destruct i; reflexivity. Qed.
(** What the loop leaves: columns are segments of the sorted list. *)
Lemma dm_packed perm : Forall (fun s => (s < length st)%nat) perm -> ordered (matcomp st) perm ->
  exists A, dm_loop st off perm None (mkCmat (repeat 0%nat n) (repeat 0%nat n) [] []) = Ok A /\
    c_row A = map kr perm /\ length (c_start A) = n /\ length (c_len A) = n /\
    forall c, (c < n)%nat -> (nth c (c_start A) 0 + nth c (c_len A) 0 <= length perm)%nat /\
      firstn (nth c (c_len A) 0%nat) (skipn (nth c (c_start A) 0%nat) perm) = filter (fun s => Nat.eqb (kc s) c) perm \/
      nth c (c_len A) 0%nat = 0%nat /\ filter (fun s => Nat.eqb (kc s) c) perm = [].
Proof.
  intros FP OR. pose proof (ordered_before _ _ OR) as OB.
  destruct (dm_loop_ok perm 0 [] None (mkCmat (repeat 0%nat n) (repeat 0%nat n) [] []) FP) as (A & ini & E & PK).
  - apply packed_nil.
  - exact Logic.I.
  - cbn [app]. apply ents_sorted, OB.
  - cbn [app] in PK. exists A. split; [exact E|]. rewrite ents_gt in PK.
    assert (KP : kept (map gt perm) = map gt perm).
    { unfold kept. apply filter_all. apply Forall_forall. intros t Ht. apply in_map_iff in Ht. destruct Ht as (s & <- & Hs). rewrite Forall_forall in FP. specialize (FP _ Hs).
      unfold keep, gt, trow. cbn [fst snd]. pose proof (range s FP). rewrite cidx_nth by (unfold kr; lia). reflexivity. }
    destruct PK as (R & LS & LL & II & C). rewrite KP in *.
    split.
    { rewrite R, map_map. apply map_ext_in. intros s Hs. rewrite Forall_forall in FP. specialize (FP _ Hs). pose proof (range s FP). unfold krow, gt, trow. cbn [fst snd]. rewrite cidx_nth by (unfold kr; lia). reflexivity. }
    split; [exact LS|]. split; [exact LL|]. intros c Hc. destruct (C c Hc) as (C1 & C2).
    assert (IP : incr kc perm).
    { clear - OB. induction perm as [|s perm IH]; [exact Logic.I|]. cbn [map] in OB. inversion OB as [|a l F O1]. subst. split; [|exact (IH O1)].
      apply Forall_forall. intros u Hu. rewrite Forall_forall in F. specialize (F (ei u) (in_map (fun s => ei s) _ _ Hu)). unfold before, kc in *. lia. }
    assert (F1 : filter (isc c) (map gt perm) = map gt (filter (fun s => Nat.eqb (kc s) c) perm)) by (rewrite filter_map_comm; reflexivity).
    assert (F2 : filter (lessc c) (map gt perm) = map gt (filter (fun s => Nat.ltb (kc s) c) perm)) by (rewrite filter_map_comm; reflexivity).
    destruct (filter (fun s => Nat.eqb (kc s) c) perm) as [|s0 r0] eqn:EF.
    + right. split; [|reflexivity]. rewrite C1, F1. reflexivity.
    + left. rewrite <- EF in *. assert (I0 : In s0 (filter (fun s => Nat.eqb (kc s) c) perm)) by (rewrite EF; left; reflexivity). apply filter_In in I0. destruct I0 as (I0 & I1).
      apply Nat.eqb_eq in I1. assert (HC : In c (map tcol (map gt perm))). { rewrite map_map. apply in_map_iff. exists s0. split; [exact I1|exact I0]. }
      rewrite C1, (C2 HC), F1, F2, !map_length. pose proof (incr_segment kc c perm IP) as SG. split; [|exact SG].
      assert (LL2 : length (firstn (length (filter (fun s => Nat.eqb (kc s) c) perm)) (skipn (length (filter (fun s => Nat.ltb (kc s) c) perm)) perm)) = length (filter (fun s => Nat.eqb (kc s) c) perm)) by (rewrite SG; reflexivity).
      rewrite firstn_length, skipn_length in LL2. assert (0 < length (filter (fun s => Nat.eqb (kc s) c) perm))%nat by (rewrite EF; cbn [length]; lia). lia.
Qed.
(** A column of the MILP. *)
Variable hl : list bool.
Hypothesis Lhl : length hl = m.
Definition fe (jac : list Q) (s : nat) : nat * Q := (rank hl (kr s), nth s jac 0).
Lemma dm_column_ok jac perm : length jac = length st -> Forall (fun s => (s < length st)%nat) perm -> forall k j acc, (j + k <= length perm)%nat ->
  Forall (fun s => nth (kr s) hl false = true) (firstn k (skipn j perm)) ->
  NoDup (map fst acc ++ map (fun s => rank hl (kr s)) (firstn k (skipn j perm))) ->
  dm_column perm (map kr perm) (lin_index 0 hl) jac j k acc = Ok (acc ++ map (fe jac) (firstn k (skipn j perm))).
Proof.
  intros LJ FP. induction k as [|k IH]; intros j acc L FH ND; [cbn [dm_column firstn map]; rewrite app_nil_r; reflexivity|].
  cbn [dm_column]. rewrite (rd_fine j (map kr perm) (kr 0)) by (rewrite map_length; lia). rewrite map_nth. cbn [bind].
  assert (Hp : (nth j perm 0 < length st)%nat). { rewrite Forall_forall in FP. apply FP, nth_In. lia. }
  pose proof (range _ Hp) as RG. set (s := nth j perm 0%nat) in *.
  rewrite (rd_fine (kr s) (lin_index 0 hl) None) by (rewrite lin_index_length; unfold kr; lia). cbn [bind].
  rewrite (rd_fine j perm 0%nat) by lia. cbn [bind]. fold s. rewrite (rd_fine s jac 0) by lia. cbn [bind].
  assert (SK : skipn j perm = s :: skipn (S j) perm).
  { unfold s. clear - L. revert j L. induction perm as [|a perm IHp]; intros j L; [cbn [length] in L; lia|]. destruct j as [|j]; [reflexivity|]. cbn [skipn nth]. apply IHp. cbn [length] in L. lia. }
  rewrite SK in FH, ND |- *. cbn [firstn map] in FH, ND |- *. apply Forall_cons_iff in FH. destruct FH as (H1 & FH).
  rewrite lin_index_nth, H1. cbn [Nat.add].
  destruct (existsb (fun e => Nat.eqb (fst e) (rank hl (kr s))) acc) eqn:EX.
  { exfalso. apply existsb_exists in EX. destruct EX as (e & He & Ee). apply Nat.eqb_eq in Ee. apply NoDup_remove_2 in ND. apply ND. apply in_or_app. left. rewrite <- Ee. apply in_map, He. }
  rewrite IH; [|lia|exact FH|].
  - rewrite <- app_assoc. reflexivity.
  - rewrite map_app. cbn [map fst]. rewrite <- app_assoc. exact ND.
Qed.
Lemma dm_columns_ok jac perm A : length jac = length st -> Forall (fun s => (s < length st)%nat) perm ->
  c_row A = map kr perm -> length (c_start A) = n -> length (c_len A) = n ->
  (forall c, (c < n)%nat -> (nth c (c_start A) 0 + nth c (c_len A) 0 <= length perm)%nat /\
      firstn (nth c (c_len A) 0%nat) (skipn (nth c (c_start A) 0%nat) perm) = filter (fun s => Nat.eqb (kc s) c) perm \/
      nth c (c_len A) 0%nat = 0%nat /\ filter (fun s => Nat.eqb (kc s) c) perm = []) ->
  forall lv, Forall (fun c => (c < n)%nat /\ Forall (fun s => kc s = c -> nth (kr s) hl false = true) perm /\ NoDup (map (fun s => rank hl (kr s)) (filter (fun s => Nat.eqb (kc s) c) perm))) lv ->
  dm_columns perm A (lin_index 0 hl) jac lv = Ok (map (fun c => map (fe jac) (filter (fun s => Nat.eqb (kc s) c) perm)) lv).
Proof.
  intros LJ FP RW LS LL CC. induction lv as [|c lv IH]; intros F; [reflexivity|].
  apply Forall_cons_iff in F. destruct F as ((Hc & FH & ND) & F). cbn [dm_columns map].
  rewrite (rd_fine c (c_start A) 0%nat) by lia. cbn [bind]. rewrite (rd_fine c (c_len A) 0%nat) by lia. cbn [bind]. rewrite RW.
  assert (E : dm_column perm (map kr perm) (lin_index 0 hl) jac (nth c (c_start A) 0%nat) (nth c (c_len A) 0%nat) [] = Ok (map (fe jac) (filter (fun s => Nat.eqb (kc s) c) perm))).
  { destruct (CC c Hc) as [(B & SG)|(B & SG)].
    - rewrite dm_column_ok; [rewrite SG; reflexivity|exact LJ|exact FP|exact B| |cbn [map app]; rewrite SG; exact ND].
      rewrite SG. apply Forall_forall. intros s Hs. apply filter_In in Hs. destruct Hs as (Hs & Es). apply Nat.eqb_eq in Es. rewrite Forall_forall in FH. exact (FH _ Hs Es).
    - rewrite B, SG. reflexivity. }
  rewrite E. cbn [bind]. rewrite (IH F). reflexivity.
Qed.
(** Its coefficients. *)
Lemma combine_seq {B} (l : list B) (d : B) : forall (s : list (nat * nat)), length s = length l -> combine s l = map (fun k => (nth k s (0, 0)%nat, nth k l d)) (seq 0 (length s)).
Proof.
  induction l as [|b l IH]; intros [|a s] L; try discriminate; [reflexivity|]. cbn [combine length seq map nth]. f_equal. rewrite <- seq_shift, map_map. apply IH. cbn [length] in L. lia.
Qed.
Lemma dm_coef jac perm c i : length jac = length st -> Permutation (seq 0 (length st)) perm ->
  Forall (fun s => kc s = c -> nth (kr s) hl false = true) perm -> nth i hl false = true ->
  coef (map (fe jac) (filter (fun s => Nat.eqb (kc s) c) perm)) (rank hl i) == dense off st jac i c.
Proof.
  intros LJ PM FH Hi.
  assert (E1 : coef (map (fe jac) (filter (fun s => Nat.eqb (kc s) c) perm)) (rank hl i) == qsum (map (fun s => if (Nat.eqb (kr s) i && Nat.eqb (kc s) c)%bool then nth s jac 0 else 0) perm)).
  { unfold coef. clear PM. induction perm as [|s perm IH]; [reflexivity|]. apply Forall_cons_iff in FH. destruct FH as (H1 & FH). cbn [filter map qsum].
    destruct (Nat.eqb_spec (kc s) c) as [E|E].
    - cbn [map filter]. unfold in_row at 1, fe at 1. cbn [fst]. rewrite andb_true_r. specialize (H1 E).
      destruct (Nat.eqb_spec (rank hl (kr s)) (rank hl i)) as [X|X].
      + apply rank_inj in X; [|exact H1|exact Hi]. rewrite X, Nat.eqb_refl. cbn [map qsum]. rewrite (IH FH). reflexivity.
      + destruct (Nat.eqb_spec (kr s) i) as [Y|Y]; [congruence|]. rewrite (IH FH). ring.
    - rewrite andb_false_r, (IH FH). ring. }
  rewrite E1. unfold dense. rewrite (combine_seq jac 0 st (eq_sym LJ)), map_map. cbn [fst snd].
  rewrite (qsum_perm _ _ (Permutation_map _ (Permutation_sym PM))). apply qsum_ext. intros s Hs. apply in_seq in Hs.
  assert (Hs' : (s < length st)%nat) by lia. pose proof (range s Hs') as RG. unfold kr, kc.
  assert (B1 : Nat.eqb (fst (ei s) - off) i = Nat.eqb (fst (ei s)) (i + off)) by (destruct (Nat.eqb_spec (fst (ei s) - off) i), (Nat.eqb_spec (fst (ei s)) (i + off)); try reflexivity; lia).
  assert (B2 : Nat.eqb (snd (ei s) - off) c = Nat.eqb (snd (ei s)) (c + off)) by (destruct (Nat.eqb_spec (snd (ei s) - off) c), (Nat.eqb_spec (snd (ei s)) (c + off)); try reflexivity; lia).
  rewrite B1, B2. reflexivity.
Qed.
End Dm.

(** ** Positions *)
Lemma int_cols_filter l : forall k, int_cols k l = filter (fun j => nth (j - k) l false) (seq k (length l)).
Proof.
  induction l as [|b l IH]; intros k; [reflexivity|]. cbn [int_cols length seq filter]. rewrite Nat.sub_diag. change (nth 0 (b :: l) false) with b.
  assert (E : filter (fun j => nth (j - k) (b :: l) false) (seq (S k) (length l)) = int_cols (S k) l).
  { rewrite IH. apply filter_ext_in. intros j Hj. apply in_seq in Hj. replace (j - k)%nat with (S (j - S k)) by lia. reflexivity. }
  rewrite E. destruct b; reflexivity.
Qed.
Lemma positions_true vlin : positions true vlin = linear_cols vlin.
Proof.
  unfold positions, linear_cols. rewrite int_cols_filter, map_length. apply filter_ext_in. intros j Hj. apply in_seq in Hj. rewrite Nat.sub_0_r.
  rewrite (nth_indep _ false (Bool.eqb false true)) by (rewrite map_length; lia). rewrite (map_nth (fun b => Bool.eqb b true)). destruct (nth j vlin false); reflexivity.
Qed.
Lemma linear_cols_in vlin j : In j (linear_cols vlin) <-> nth j vlin false = true.
Proof. unfold linear_cols. rewrite filter_In, in_seq. split; [tauto|]. intros H. pose proof (nth_in_len _ _ H). split; [lia|exact H]. Qed.
Lemma linear_cols_nodup vlin : NoDup (linear_cols vlin).
Proof. apply NoDup_filter, seq_NoDup. Qed.
Lemma reads_ok {A} (x : list A) d lv : Forall (fun j => (j < length x)%nat) lv -> reads lv x = Ok (map (fun j => nth j x d) lv).
Proof.
  induction lv as [|i lv IH]; intros F; [reflexivity|]. apply Forall_cons_iff in F. destruct F as (H & F). cbn [reads map].
  rewrite (rd_fine i x d) by exact H. cbn [bind]. rewrite (IH F). reflexivity.
Qed.
Lemma set_all_ok f lv : forall x, Forall (fun j => (j < length x)%nat) lv ->
  exists x', set_all lv f x = Ok x' /\ length x' = length x /\ forall j, nth j x' 0 = if existsb (Nat.eqb j) lv then f j else nth j x 0.
Proof.
  induction lv as [|i lv IH]; intros x F; [exists x; repeat split|]. apply Forall_cons_iff in F. destruct F as (H & F). cbn [set_all].
  destruct (lset_fine i (f i) x 0 H) as (x1 & E1 & L1 & G1). rewrite E1. cbn [bind].
  destruct (IH x1) as (x2 & E2 & L2 & G2); [rewrite L1; exact F|]. exists x2. split; [exact E2|]. split; [lia|]. intros j. rewrite G2, G1. cbn [existsb].
  destruct (Nat.eqb_spec j i) as [->|]; cbn [orb]; [destruct (existsb _ lv); reflexivity|reflexivity].
Qed.
Lemma with_linear_length vlin : forall x y, length (with_linear vlin x y) = length x.
Proof. induction vlin as [|[] vlin IH]; intros [|a x] y; try reflexivity; cbn [with_linear]; [destruct y; cbn [length]; rewrite IH; reflexivity|cbn [length]; rewrite IH; reflexivity]. Qed.
Lemma with_linear_zero vlin : forall x, length vlin = length x -> forall j, nth j (with_linear vlin x []) 0 = if nth j vlin false then 0 else nth j x 0.
Proof.
  induction vlin as [|b vlin IH]; intros [|a x] L j; try discriminate.
  - destruct j; reflexivity.
  - destruct b; cbn [with_linear]; (destruct j as [|j]; [reflexivity|]; cbn [nth]; apply IH; cbn [length] in L; lia).
Qed.
Lemma with_linear_zeros vlin : forall x y, Forall (fun q => q = 0) y -> with_linear vlin x y = with_linear vlin x [].
Proof.
  induction vlin as [|[] vlin IH]; intros [|a x] y F; try reflexivity; cbn [with_linear].
  - destruct y as [|v y]; [reflexivity|]. apply Forall_cons_iff in F. destruct F as (-> & F). rewrite (IH _ _ F). reflexivity.
  - rewrite (IH _ _ F). reflexivity.
Qed.
Lemma nth_eq (a b : list Q) : length a = length b -> (forall j, nth j a 0 = nth j b 0) -> a = b.
Proof.
  revert b; induction a as [|q a IH]; intros [|r b] L H; try discriminate; [reflexivity|]. f_equal; [exact (H O)|]. apply IH; [cbn [length] in L; lia|]. intros j. exact (H (S j)).
Qed.
(** ** Rows *)
Lemma rank_surj hl : forall k, (k < count_occ Bool.bool_dec hl true)%nat -> exists i, (i < length hl)%nat /\ nth i hl false = true /\ rank hl i = k.
Proof.
  induction hl as [|b hl IH]; intros k H; [cbn in H; lia|]. cbn [count_occ] in H. destruct (Bool.bool_dec b true) as [->|N].
  - destruct k as [|k]; [exists 0%nat; cbn [length nth]; repeat split; lia|]. destruct (IH k) as (i & I1 & I2 & I3); [lia|]. exists (S i). cbn [length nth]. rewrite rank_S. repeat split; [lia|exact I2|lia].
  - destruct (IH k H) as (i & I1 & I2 & I3). exists (S i). cbn [length nth]. rewrite rank_S. destruct b; [congruence|]. repeat split; [lia|exact I2|lia].
Qed.
Lemma shift_rows_ok hl : forall g v k0, length g = length hl -> length v = length hl ->
  length (shift_rows (lin_index k0 hl) g v) = count_occ Bool.bool_dec hl true /\
  forall i d, nth i hl false = true -> nth (rank hl i) (shift_rows (lin_index k0 hl) g v) d = eplus (nth i g d) (- nth i v 0).
Proof.
  induction hl as [|b hl IH]; intros [|e g] [|q v] k0 Lg Lv; try discriminate.
  - split; [reflexivity|]. intros [|i] d H; discriminate.
  - cbn [length] in Lg, Lv. destruct b; cbn [lin_index shift_rows].
    + destruct (IH g v (S k0)) as (A & B); [lia|lia|]. split; [cbn [length count_occ]; rewrite A; reflexivity|].
      intros [|i] d H; [reflexivity|]. rewrite rank_S. cbn [nth Nat.add]. apply B, H.
    + destruct (IH g v k0) as (A & B); [lia|lia|]. split; [cbn [count_occ]; exact A|].
      intros [|i] d H; [discriminate H|]. rewrite rank_S. cbn [nth Nat.add]. apply B, H.
Qed.
Lemma dot_ext a a' y : Forall2 Qeq a a' -> dot a y == dot a' y.
Proof. intros F. revert y. unfold dot. induction F as [|p q a a' E _ IH]; intros [|v y]; try reflexivity. cbn [combine map qsum fst snd]. rewrite E, (IH y). reflexivity. Qed.
Lemma F2_map {A} (f g : A -> Q) l : (forall a, In a l -> f a == g a) -> Forall2 Qeq (map f l) (map g l).
Proof. induction l as [|a l IH]; intros H; constructor; [apply H; left; reflexivity|apply IH; intros b Hb; apply H; right; exact Hb]. Qed.
Lemma lo_shift l v a : lo_ok (eplus l (- a)) v <-> lo_ok l (a + v).
Proof. destruct l; cbn [eplus lo_ok]; try tauto. split; lra. Qed.
Lemma up_shift u v a : up_ok (eplus u (- a)) v <-> up_ok u (a + v).
Proof. destruct u; cbn [eplus up_ok]; try tauto. split; lra. Qed.
Lemma lo_eq l v w : v == w -> (lo_ok l v <-> lo_ok l w).
Proof. intros E. destruct l; cbn [lo_ok]; try tauto. rewrite E. reflexivity. Qed.
Lemma up_eq u v w : v == w -> (up_ok u v <-> up_ok u w).
Proof. intros E. destruct u; cbn [up_ok]; try tauto. rewrite E. reflexivity. Qed.
Lemma has_linear_iff P vlin i : nlp_ok P -> has_linear (p_jst P) (p_off P) vlin i = true <-> touches P vlin i.
Proof.
  intros OK. pose proof (ok_jst P OK) as FJ. rewrite Forall_forall in FJ. unfold has_linear, touches. rewrite existsb_exists. split.
  - intros (rc & I1 & I2). apply andb_true_iff in I2. destruct I2 as (I2 & I3). apply Nat.eqb_eq in I2. specialize (FJ _ I1). exists rc, (snd rc - p_off P)%nat. repeat split; [exact I1|lia|lia|exact I3].
  - intros (rc & j & I1 & I2 & I3 & I4). exists rc. split; [exact I1|]. apply andb_true_iff. split; [apply Nat.eqb_eq; lia|]. rewrite I3, Nat.add_sub. exact I4.
Qed.
Lemma hl_nth (f : nat -> bool) m i : nth i (map f (seq 0 m)) false = (Nat.ltb i m && f i)%bool.
Proof.
  destruct (Nat.ltb_spec i m) as [H|H]; cbn [andb].
  - rewrite (nth_indep _ false (f 0%nat)) by (rewrite map_length, seq_length; exact H). rewrite map_nth, seq_nth by exact H. reflexivity.
  - apply nth_overflow. rewrite map_length, seq_length. exact H.
Qed.
Lemma bounds_iff b lc y : length y = length lc -> (in_bounds (map (fun j => nth j (k_lo b) MInf) lc) (map (fun j => nth j (k_up b) PInf) lc) y <->
  forall k, (k < length lc)%nat -> lo_ok (nth (nth k lc 0%nat) (k_lo b) MInf) (nth k y 0) /\ up_ok (nth (nth k lc 0%nat) (k_up b) PInf) (nth k y 0)).
Proof.
  intros L. change (in_bounds (map (fun j => nth j (k_lo b) MInf) lc) (map (fun j => nth j (k_up b) PInf) lc) y) with (in_box (mkCols (map (fun j => nth j (k_lo b) MInf) lc) (map (fun j => nth j (k_up b) PInf) lc)) y).
  rewrite in_box_nth. cbn [k_lo k_up]. rewrite !map_length. unfold nlo, nup. cbn [k_lo k_up].
  assert (N1 : forall k, (k < length lc)%nat -> nth k (map (fun j => nth j (k_lo b) MInf) lc) MInf = nth (nth k lc 0%nat) (k_lo b) MInf).
  { intros k Hk. rewrite (nth_indep _ MInf (nth 0 (k_lo b) MInf)) by (rewrite map_length; exact Hk). rewrite (map_nth (fun j => nth j (k_lo b) MInf)). reflexivity. }
  assert (N2 : forall k, (k < length lc)%nat -> nth k (map (fun j => nth j (k_up b) PInf) lc) PInf = nth (nth k lc 0%nat) (k_up b) PInf).
  { intros k Hk. rewrite (nth_indep _ PInf (nth 0 (k_up b) PInf)) by (rewrite map_length; exact Hk). rewrite (map_nth (fun j => nth j (k_up b) PInf)). reflexivity. }
  split.
  - intros (_ & _ & H) k Hk. specialize (H k). rewrite (N1 k Hk), (N2 k Hk) in H. apply H. lia.
  - intros H. split; [lia|]. split; [lia|]. intros k Hk. rewrite (N1 k), (N2 k) by lia. apply H. lia.
Qed.
Lemma NoDup_map_inj {A B} (f : A -> B) l : (forall a b, In a l -> In b l -> f a = f b -> a = b) -> NoDup l -> NoDup (map f l).
Proof.
  induction l as [|a l IH]; intros H N; [constructor|]. apply NoDup_cons_iff in N. destruct N as (N1 & N2). cbn [map]. constructor.
  - intros I1. apply in_map_iff in I1. destruct I1 as (b & E & Ib). apply H in E; [subst b; contradiction|right; exact Ib|left; reflexivity].
  - apply IH; [|exact N2]. intros b c Hb Hc. apply H; right; assumption.
Qed.
Lemma nodup_filter_inj {A} (f : A -> bool) (l : list A) d : NoDup (filter f l) -> forall i j, (i < length l)%nat -> (j < length l)%nat -> f (nth i l d) = true -> nth i l d = nth j l d -> i = j.
Proof.
  induction l as [|a l IH]; intros N i j Hi Hj F E; [cbn [length] in Hi; lia|]. cbn [filter] in N. cbn [length] in Hi, Hj.
  destruct i as [|i], j as [|j]; cbn [nth] in *; [reflexivity| | |].
  - rewrite F in N. apply NoDup_cons_iff in N. destruct N as (N & _). exfalso. apply N. apply filter_In. split; [rewrite E; apply nth_In; lia|exact F].
  - rewrite E in F. rewrite F in N. apply NoDup_cons_iff in N. destruct N as (N & _). exfalso. apply N. apply filter_In. split; [rewrite <- E; apply nth_In; lia|exact F].
  - f_equal. apply IH; [|lia|lia|exact F|exact E]. destruct (f a); [apply NoDup_cons_iff in N; tauto|exact N].
Qed.
