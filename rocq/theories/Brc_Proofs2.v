(** Lemmas for the candidate list: the final arrangement. *)
From Verif Require Import Base Arr Itf_Model Oad_Model Oad_Proofs2 Brc_Model Brc_Spec Brc_Proofs.
#[local] Open Scope Q_scope.

Lemma lset_same {A} j (c : A) L : nth_error L j = Some c -> lset j c L = Ok L.
Proof.
  intros H. destruct (nth_split_at _ _ _ H) as (l1 & l2 & E & <-). rewrite E, lset_mid. reflexivity.
Qed.
Lemma compact_free neg (L : list cell) U : forall m i k, (forall j, (i <= j < i + m)%nat -> rd j L = Ok (None : cell)) -> compact neg m i k L U = Ok (L, U, k).
Proof.
  induction m as [|m IH]; intros i k H; [reflexivity|]. cbn [compact]. rewrite (H i) by lia. cbn [bind]. apply IH. intros j Hj. apply H. lia.
Qed.
Lemma compact_full (neg : bool) F g B e uf : forall k j m U, (j + k = length F)%nat -> (k <= m <= k + g)%nat -> (length F <= length U)%nat ->
  (forall i f, nth_error F i = Some f -> nth_error U i = Some (if (neg && Nat.ltb i j)%bool then - uf f else uf f)) ->
  exists U', compact neg m j j (shape F g B e) U = Ok (shape F g B e, U', length F) /\ length U' = length U /\
    (forall i f, nth_error F i = Some f -> nth_error U' i = Some (if neg then - uf f else uf f)).
Proof.
  induction k as [|k IH]; intros j m U J M LU HU.
  - exists U. split; [|split; [reflexivity|]].
    + replace j with (length F) by lia. apply compact_free. intros i Hi. apply shape_free. lia.
    + intros i f N. assert (i < length F)%nat by (apply nth_error_Some; congruence). rewrite (HU i f N).
      destruct neg; cbn [andb]; [|reflexivity]. replace (Nat.ltb i j) with true by (symmetry; apply Nat.ltb_lt; lia). reflexivity.
  - destruct m as [|m]; [lia|]. cbn [compact].
    destruct (nth_error F j) as [f|] eqn:E; [|apply nth_error_None in E; lia].
    rewrite (shape_front F g B e j f E). cbn [bind]. pose proof (HU j f E) as Hj.
    rewrite Nat.ltb_irrefl, andb_false_r in Hj. unfold rd. rewrite Hj. cbn [bind].
    assert (SN : nth_error (shape F g B e) j = Some (Some f)).
    { pose proof (shape_front F g B e j f E) as X. unfold rd in X. destruct (nth_error (shape F g B e) j) as [x|]; [|discriminate]. injection X as ->. reflexivity. }
    rewrite (lset_same j (Some f) _ SN). cbn [bind].
    destruct (lset_get j (if neg then - uf f else uf f) U) as (U1 & E1 & L1 & G1); [lia|]. rewrite E1. cbn [bind].
    destruct (IH (S j) m U1) as (U2 & E2 & L2 & G2); [lia|lia|lia| |].
    + intros i f' N. rewrite G1. destruct (Nat.eqb_spec i j) as [e0|D].
      * subst i. assert (f' = f) by congruence. subst f'. replace (Nat.ltb j (S j)) with true by (symmetry; apply Nat.ltb_lt; lia).
        rewrite andb_true_r. reflexivity.
      * rewrite (HU i f' N). destruct neg; cbn [andb]; [|reflexivity].
        destruct (Nat.ltb_spec i j), (Nat.ltb_spec i (S j)); try lia; reflexivity.
    + exists U2. rewrite E2. split; [reflexivity|]. split; [lia|exact G2].
Qed.

(** move: cells [put, put+n) go to [i, i+n). *)
Lemma move_ok : forall n i put L, (i <= put)%nat -> (put + n <= length L)%nat ->
  exists L', move n i put L = Ok (L', (i + n)%nat) /\ length L' = length L /\
    (forall j, (j < i)%nat -> nth_error L' j = nth_error L j) /\ (forall t, (t < n)%nat -> nth_error L' (i + t) = nth_error L (put + t)).
Proof.
  induction n as [|n IH]; intros i put L I P.
  - exists L. cbn [move]. rewrite Nat.add_0_r. repeat split. intros t T. lia.
  - cbn [move]. destruct (rd_lt put L) as (c & -> & Nc); [lia|]. cbn [bind].
    destruct (lset_get i c L) as (L1 & E1 & LL & G1); [lia|]. rewrite E1. cbn [bind].
    destruct (IH (S i) (S put) L1) as (L2 & E2 & LL2 & G2 & T2); [lia|lia|]. exists L2. rewrite E2.
    split; [f_equal; f_equal; lia|]. split; [lia|]. split.
    + intros j J. rewrite G2 by lia. rewrite G1. destruct (Nat.eqb_spec j i); [lia|reflexivity].
    + intros t T. destruct t as [|t].
      * rewrite !Nat.add_0_r. rewrite G2 by lia. rewrite G1, Nat.eqb_refl. congruence.
      * replace (i + S t)%nat with (S i + t)%nat by lia. rewrite T2 by lia. rewrite G1.
        destruct (Nat.eqb_spec (S put + t) i); [lia|]. f_equal. lia.
Qed.

(** Sorted lists of cells. *)
Inductive asc : list nat -> Prop := asc_nil : asc [] | asc_cons : forall a l, Forall (fun b => (a < b)%nat) l -> asc l -> asc (a :: l).
Lemma sorted_cells {B} (r : list (cell * B)) F' : sorted_by cell_le r -> map fst r = map Some F' -> NoDup F' -> asc F'.
Proof.
  intros H. revert F'. induction H as [|a l Hd _ IH]; intros [|f F'] E N; cbn in E; try discriminate; constructor.
  - injection E as E1 E2. inversion N as [|? ? N1 N2]; subst. apply Forall_forall. intros b Ib.
    assert (X : In (Some b) (map fst l)) by (rewrite E2; apply in_map, Ib).
    apply in_map_iff in X. destruct X as (p & X1 & X2). rewrite Forall_forall in Hd. specialize (Hd p X2). cbn beta in Hd.
    rewrite E1, X1 in Hd. cbn in Hd. assert (b <> f) by (intros ->; exact (N1 Ib)). lia.
  - injection E as E1 E2. apply IH; [exact E2|]. inversion N; assumption.
Qed.
Lemma firstn_shape F g B e : firstn (length F) (shape F g B e) = map Some F.
Proof. unfold shape. rewrite firstn_app, map_length, Nat.sub_diag, firstn_O, app_nil_r. rewrite <- (map_length Some F). apply firstn_all. Qed.
Lemma skipn_shape F g B e : skipn (length F) (shape F g B e) = repeat None g ++ map Some B ++ repeat None e.
Proof. unfold shape. rewrite skipn_app, map_length, Nat.sub_diag. rewrite skipn_all2 by (rewrite map_length; lia). reflexivity. Qed.
Lemma combine_fst {A B} (l : list A) (l' : list B) : (length l <= length l')%nat -> map fst (combine l l') = l.
Proof. revert l'; induction l as [|a l IH]; intros [|b l'] H; cbn in *; try lia; [reflexivity|reflexivity|]. f_equal. apply IH. lia. Qed.
Lemma combine_snd {A B} (l : list A) (l' : list B) : (length l' <= length l)%nat -> map snd (combine l l') = l'.
Proof. revert l'; induction l as [|a l IH]; intros [|b l'] H; cbn in *; try lia; [reflexivity|reflexivity|]. f_equal. apply IH. lia. Qed.
Lemma map_Some_perm (l : list nat) (l' : list cell) : Permutation (map Some l) l' -> exists k, l' = map Some k /\ Permutation l k.
Proof. intros H. apply Permutation_sym, Permutation_map_inv in H. destruct H as (k & -> & P). exists k. split; [reflexivity|exact P]. Qed.

Lemma sortI_ok S F g B e U : sorters_ok S -> NoDup F -> (length F <= length U)%nat ->
  exists F' U', sortI S (length F) (shape F g B e) U = Ok (shape F' g B e, U') /\ Permutation F F' /\ asc F' /\ length U' = length U.
Proof.
  intros (H & _) ND LU. unfold sortI. rewrite shape_len.
  replace (Nat.leb (length F) (length F + g + length B + e)) with true by (symmetry; apply Nat.leb_le; lia).
  replace (Nat.leb (length F) (length U)) with true by (symmetry; apply Nat.leb_le; lia). cbn [andb].
  rewrite firstn_shape, skipn_shape. set (z := combine (map Some F) (firstn (length F) U)).
  destruct (H z) as (P & Sd). assert (Lf : length (firstn (length F) U) = length F) by (rewrite firstn_length; lia).
  assert (Ef : map fst z = map Some F) by (apply combine_fst; rewrite map_length; lia).
  assert (PF : Permutation (map Some F) (map fst (sI S z))) by (rewrite <- Ef; apply Permutation_map, P).
  destruct (map_Some_perm _ _ PF) as (F' & E' & P'). exists F'. eexists. split; [rewrite E'; reflexivity|].
  split; [exact P'|]. split; [eapply sorted_cells; [exact Sd|exact E'|]; eapply Permutation_NoDup; eassumption|].
  rewrite app_length, map_length, skipn_length, <- (Permutation_length P). unfold z.
  rewrite combine_length, map_length, Lf. lia.
Qed.
(** Sorting the first cells by usefulness. *)
Lemma sortQ_ok S Y L U k (v : nat -> Q) : sorters_ok S -> firstn k L = map Some Y -> length Y = k -> (k <= length U)%nat ->
  exists Y' U', sortQ S k U L = Ok (U', map Some Y' ++ skipn k L) /\ Permutation Y Y' /\ length U' = length U /\
    ((forall i f, nth_error Y i = Some f -> nth_error U i = Some (v f)) ->
      forall i j a b, (i < j)%nat -> nth_error Y' i = Some a -> nth_error Y' j = Some b -> v a <= v b).
Proof.
  intros (_ & H) EY LY LU. unfold sortQ.
  assert (LL : (k <= length L)%nat).
  { rewrite <- LY, <- (map_length Some Y), <- EY, firstn_length. lia. }
  replace (Nat.leb k (length L)) with true by (symmetry; apply Nat.leb_le; lia).
  replace (Nat.leb k (length U)) with true by (symmetry; apply Nat.leb_le; lia). cbn [andb].
  rewrite EY. set (z := combine (firstn k U) (map Some Y)).
  assert (Lf : length (firstn k U) = k) by (rewrite firstn_length; lia).
  destruct (H z) as (P & Sd).
  assert (Es : map snd z = map Some Y) by (apply combine_snd; rewrite map_length; lia).
  assert (PF : Permutation (map Some Y) (map snd (sQ S z))) by (rewrite <- Es; apply Permutation_map, P).
  destruct (map_Some_perm _ _ PF) as (Y' & E' & P'). exists Y'. eexists. split; [rewrite E'; reflexivity|].
  split; [exact P'|]. split.
  { rewrite app_length, map_length, skipn_length, <- (Permutation_length P). unfold z. rewrite combine_length, map_length, Lf. lia. }
  intros HV.
  assert (V : forall u c, In (u, c) (sQ S z) -> exists f, c = Some f /\ u = v f).
  { intros u c I. apply (Permutation_in _ (Permutation_sym P)) in I. apply In_nth_error in I. destruct I as (i & I).
    assert (I1 : nth_error (map fst z) i = Some u) by (rewrite (map_nth_error fst _ _ I); reflexivity).
    assert (I2 : nth_error (map snd z) i = Some c) by (rewrite (map_nth_error snd _ _ I); reflexivity).
    rewrite Es in I2. unfold z in I1. rewrite combine_fst in I1 by (rewrite map_length; lia).
    destruct (nth_error Y i) as [f|] eqn:N.
    - rewrite (map_nth_error Some _ _ N) in I2. exists f. split; [congruence|]. specialize (HV i f N).
      assert (i < k)%nat by (rewrite <- LY; apply nth_error_Some; congruence).
      assert (X : nth_error (firstn k U) i = nth_error U i).
      { rewrite <- (firstn_skipn k U) at 2. rewrite nth_error_app1 by lia. reflexivity. }
      congruence.
    - apply nth_error_None in N. assert (i < length (map Some Y))%nat by (apply nth_error_Some; congruence). rewrite map_length in *. lia. }
  assert (Gen : forall (r : list (Q * cell)) y, sorted_by Qle r -> (forall u c, In (u, c) r -> exists f, c = Some f /\ u = v f) ->
     map snd r = map Some y -> forall i j a b, (i < j)%nat -> nth_error y i = Some a -> nth_error y j = Some b -> v a <= v b).
  { clear. intros r y Hs. revert y. induction Hs as [|[u c] l Hd _ IH]; intros y V E i j a b Lt Na Nb.
    - destruct y; [destruct i; discriminate|discriminate].
    - destruct y as [|f y]; [discriminate|]. cbn [map snd] in E. injection E as E1 E2.
      destruct j as [|j]; [lia|]. cbn in Nb. destruct i as [|i].
      + cbn in Na. injection Na as ->. destruct (V u c (or_introl eq_refl)) as (f' & F1 & F2). assert (f' = a) by congruence. subst f'.
        assert (X : nth_error (map snd l) j = Some (Some b)) by (rewrite E2; exact (map_nth_error Some _ _ Nb)).
        rewrite nth_error_map in X. destruct (nth_error l j) as [[u' c']|] eqn:Nl; [|discriminate]. cbn in X.
        pose proof (nth_error_In _ _ Nl) as Il. destruct (V u' c' (or_intror Il)) as (f' & F3 & F4). assert (f' = b) by congruence. subst f'.
        rewrite Forall_forall in Hd. specialize (Hd _ Il). cbn in Hd. rewrite F2, F4 in Hd. exact Hd.
      + cbn in Na. apply (IH y) with (i := i) (j := j); [intros u' c' I'; apply V; right; exact I'|exact E2|lia|exact Na|exact Nb]. }
  intros i j a b. apply (Gen (sQ S z) Y' Sd V E').
Qed.

(** merge *)
Definition left_cell (F : list nat) (x : nat) (c : cell) : Prop := c = None \/ (c = Some x /\ ~ In x F).
Lemma asc_app_lt F1 z F2 : asc (F1 ++ z :: F2) -> Forall (fun b => (z < b)%nat) F2.
Proof. induction F1 as [|a F1 IH]; cbn [app]; intros H; inversion H; subst; auto. Qed.
Lemma merge_ok mmf F g B e U2 (G : list nat) N : asc F -> asc G -> (length G <= mmf)%nat -> length U2 = mmf ->
  Forall (fun x => (x < N)%nat) G -> (N <= length F + g + length B + e)%nat ->
  forall n i i1 i2 H G1 G2 F1 F2 U, (i + n = N)%nat -> (i1 <= i)%nat -> (i2 < mmf)%nat ->
  G = G1 ++ G2 -> length G1 = i2 -> Forall2 (left_cell F) G1 H -> Forall (fun x => (i <= x)%nat) G2 ->
  F = F1 ++ F2 -> Forall (fun x => (x < i)%nat) F1 -> Forall (fun x => (i <= x)%nat) F2 -> (length F1 = i1 \/ (F2 = [] /\ (length F1 <= i1)%nat)) ->
  (N <= length U)%nat ->
  exists U' H', merge mmf n i i1 i2 (shape F g B e) U (H ++ map Some G2 ++ repeat None (mmf - length G)) U2 = Ok (U', H' ++ repeat None (mmf - length G)) /\
    Forall2 (left_cell F) G H' /\ length U' = length U.
Proof.
  intros AF AG LG LU2 GN NL. induction n as [|n IH]; intros i i1 i2 H G1 G2 F1 F2 U In1 I1 I2 EG L1 HH GG EF FF1 FF2 FC LU.
  - assert (G2 = []).
    { destruct G2 as [|y G2]; [reflexivity|]. inversion GG; subst. rewrite Forall_forall in GN.
      specialize (GN y ltac:(apply in_app_iff; right; left; reflexivity)). cbn beta in GN. lia. }
    subst G2. rewrite app_nil_r in EG. exists U, H. cbn [merge map app]. split; [reflexivity|]. split; [rewrite EG; exact HH|reflexivity].
  - cbn [merge]. destruct (rd_lt i1 (shape F g B e)) as (c1 & R1 & N1); [rewrite shape_len; lia|]. rewrite R1. cbn [bind].
    assert (LH : length H = i2) by (rewrite <- L1; symmetry; eapply Forall2_len; exact HH).
    (* what is read in the second list *)
    assert (C2 : exists c2, rd i2 (H ++ map Some G2 ++ repeat None (mmf - length G)) = Ok c2 /\
              ((G2 = [] /\ c2 = None) \/ exists y G3, G2 = y :: G3 /\ c2 = Some y)).
    { destruct G2 as [|y G3].
      - cbn [map app]. rewrite app_nil_r in EG. assert (length G = i2) by congruence.
        destruct (mmf - length G)%nat as [|d] eqn:Dd; [lia|]. cbn [repeat]. exists None. split; [rewrite <- LH; apply rd_mid|]. left. auto.
      - exists (Some y). cbn [map app]. split; [rewrite <- LH; apply rd_mid|]. right. eauto. }
    destruct C2 as (c2 & R2 & D2). rewrite R2. cbn [bind].
    (* the first list *)
    assert (C1 : exists F1' F2', F = F1' ++ F2' /\ Forall (fun x => (x < S i)%nat) F1' /\ Forall (fun x => (S i <= x)%nat) F2' /\
              (length F1' = (if is_cell i c1 then S i1 else i1) \/ (F2' = [] /\ (length F1' <= if is_cell i c1 then S i1 else i1)%nat)) /\
              (is_cell i c1 = false -> ~ In i F)).
    { destruct F2 as [|z F2].
      - exists F1, []. split; [exact EF|]. split; [eapply Forall_impl; [|exact FF1]; intros x X; cbn beta in X; lia|]. split; [constructor|]. split.
        + right. split; [reflexivity|]. destruct FC as [FC|(_ & FC)]; destruct (is_cell i c1); lia.
        + intros _ X. rewrite EF, app_nil_r in X. rewrite Forall_forall in FF1. specialize (FF1 i X). cbn beta in FF1. lia.
      - destruct FC as [FC|(FC & _)]; [|discriminate FC].
        assert (X1 : c1 = Some z).
        { pose proof (shape_front F g B e i1 z) as X. rewrite EF, nth_error_app2, FC, Nat.sub_diag in X by lia. specialize (X eq_refl).
          rewrite <- EF in X. congruence. }
        rewrite X1. cbn [is_cell]. inversion FF2 as [|? ? Fz FF3]; subst x l.
        assert (Gt : Forall (fun b => (z < b)%nat) F2) by (rewrite EF in AF; exact (asc_app_lt _ _ _ AF)).
        destruct (Nat.eqb_spec z i) as [e0|D].
        + exists (F1 ++ [z]), F2. split; [rewrite EF, <- app_assoc; reflexivity|]. split.
          { apply Forall_app. split; [eapply Forall_impl; [|exact FF1]; intros x X; cbn beta in X; lia|]. constructor; [lia|constructor]. }
          split; [eapply Forall_impl; [|exact Gt]; intros x X; cbn beta in X; lia|]. split; [left; rewrite app_length; cbn [length]; lia|discriminate].
        + exists F1, (z :: F2). split; [exact EF|]. split; [eapply Forall_impl; [|exact FF1]; intros x X; cbn beta in X; lia|]. split.
          { constructor; [lia|]. eapply Forall_impl; [|exact Gt]; intros x X; cbn beta in X; lia. }
          split; [left; exact FC|]. intros _ X. rewrite EF in X. apply in_app_iff in X. destruct X as [X|[X|X]]; [|lia|].
          * rewrite Forall_forall in FF1. specialize (FF1 i X). cbn beta in FF1. lia.
          * rewrite Forall_forall in Gt. specialize (Gt i X). cbn beta in Gt. lia. }
    destruct C1 as (F1' & F2' & EF' & FF1' & FF2' & FC' & NiF).
    assert (I1' : ((if is_cell i c1 then S i1 else i1) <= S i)%nat) by (destruct (is_cell i c1); lia).
    destruct D2 as [(-> & ->)|(y & G3 & -> & ->)].
    + cbn [is_cell]. rewrite andb_false_r. cbn [bind]. replace (Nat.eqb i2 mmf) with false by (symmetry; apply Nat.eqb_neq; lia).
      apply (IH (S i) _ i2 H G1 [] F1' F2' U); try assumption; try lia. constructor.
    + cbn [is_cell]. inversion GG as [|? ? Gy GG3]; subst x l.
      assert (Gt : Forall (fun b => (y < b)%nat) G3) by (rewrite EG in AG; exact (asc_app_lt _ _ _ AG)).
      destruct (Nat.eqb_spec y i) as [e0|D].
      * subst y.
        assert (GG4 : Forall (fun x => (S i <= x)%nat) G3) by (eapply Forall_impl; [|exact Gt]; intros x X; cbn beta in X; lia).
        assert (EG' : G = (G1 ++ [i]) ++ G3) by (rewrite <- app_assoc; exact EG).
        assert (LG1 : length (G1 ++ [i]) = S i2) by (rewrite app_length; cbn [length]; lia).
        assert (St : exists U' c, (if (is_cell i c1 && true)%bool
             then do w <- rd i2 U2; do U' <- lset i1 (- big * (1 + w)) U; do L2' <- lset i2 None (H ++ map Some (i :: G3) ++ repeat None (mmf - length G)); Ok (U', L2')
             else Ok (U, H ++ map Some (i :: G3) ++ repeat None (mmf - length G)))
             = Ok (U', (H ++ [c]) ++ map Some G3 ++ repeat None (mmf - length G)) /\ left_cell F i c /\ length U' = length U).
        { destruct (is_cell i c1) eqn:Ec; cbn [andb].
          - destruct (rd_lt i2 U2) as (w & -> & _); [lia|]. cbn [bind].
            destruct (lset_any i1 (- big * (1 + w)) U) as (U' & EU & LU'); [lia|]. rewrite EU. cbn [bind].
            cbn [map app]. rewrite <- LH, lset_mid. cbn [bind]. exists U', None. rewrite <- app_assoc. split; [reflexivity|]. split; [left; reflexivity|exact LU'].
          - exists U, (Some i). rewrite <- app_assoc. split; [reflexivity|]. split; [right; auto|reflexivity]. }
        destruct St as (U' & c & -> & Lc & LU'). cbn [bind].
        destruct (Nat.eqb_spec (S i2) mmf) as [Em|Nm].
        -- assert (G3 = []).
           { destruct G3; [reflexivity|]. rewrite EG', !app_length in LG. cbn [length] in LG. rewrite app_length in LG1. cbn [length] in LG1. lia. }
           subst G3. exists U', (H ++ [c]). cbn [map app]. split; [reflexivity|]. split; [|exact LU'].
           rewrite app_nil_r in EG'. rewrite EG'. apply Forall2_app; [exact HH|]. constructor; [exact Lc|constructor].
        -- destruct (IH (S i) (if is_cell i c1 then S i1 else i1) (S i2) (H ++ [c]) (G1 ++ [i]) G3 F1' F2' U') as (U3 & H3 & E3 & X3 & L3);
             try assumption; try lia; [apply Forall2_app; [exact HH|constructor; [exact Lc|constructor]]|].
           exists U3, H3. rewrite E3. split; [reflexivity|]. split; [exact X3|lia].
      * rewrite andb_false_r. cbn [bind]. replace (Nat.eqb i2 mmf) with false by (symmetry; apply Nat.eqb_neq; lia).
        apply (IH (S i) _ i2 H G1 (y :: G3) F1' F2' U); try assumption; try lia.
        constructor; [lia|]. eapply Forall_impl; [|exact Gt]. intros x X. cbn beta in X. lia.
Qed.

(** force *)
Fixpoint somes (l : list cell) : list nat := match l with [] => [] | Some x :: l' => x :: somes l' | None :: l' => somes l' end.
Lemma force_ok U2 : forall H i A C Lp Ls U, (i + length H <= length U2)%nat -> length Lp = i -> (length (somes H) <= length C)%nat ->
  (length A + length (somes H) <= length U)%nat ->
  exists U', force (length H) i (length A) (A ++ C) U (Lp ++ H ++ Ls) U2 =
    Ok (A ++ map Some (somes H) ++ skipn (length (somes H)) C, U', (length A + length (somes H))%nat) /\ length U' = length U.
Proof.
  induction H as [|c H IH]; intros i A C Lp Ls U LU LL LC LUU; cbn [somes length] in *.
  - exists U. cbn [force map app skipn]. rewrite Nat.add_0_r. split; reflexivity.
  - cbn [force]. cbn [app]. rewrite (rd_mid' i Lp (H ++ Ls) c LL). cbn [bind].
    assert (E1 : Lp ++ c :: H ++ Ls = (Lp ++ [c]) ++ H ++ Ls) by (rewrite <- app_assoc; reflexivity).
    assert (E2 : length (Lp ++ [c]) = S i) by (rewrite app_length; cbn [length]; lia).
    destruct c as [x|]; cbn [somes length] in *.
    + destruct (rd_lt i U2) as (w & -> & _); [lia|]. cbn [bind].
      destruct C as [|d C]; [cbn [length] in LC; lia|]. rewrite lset_mid. cbn [bind].
      destruct (lset_any (length A) (- big * (1 + w)) U) as (U1 & -> & L1); [lia|]. cbn [bind].
      destruct (IH (S i) (A ++ [Some x]) C (Lp ++ [Some x]) Ls U1) as (U' & E & L'); [lia|exact E2|cbn [length] in LC; lia|rewrite app_length; cbn [length]; lia|].
      rewrite E1. replace (A ++ Some x :: C) with ((A ++ [Some x]) ++ C) by (rewrite <- app_assoc; reflexivity).
      replace (S (length A)) with (length (A ++ [Some x])) by (rewrite app_length; cbn [length]; lia).
      rewrite E. exists U'. rewrite <- app_assoc. cbn [map app skipn]. split; [|lia]. rewrite app_length. cbn [length]. f_equal. f_equal. lia.
    + rewrite E1. apply IH; try assumption; lia.
Qed.
Lemma somes_in F : forall G H, Forall2 (left_cell F) G H -> NoDup G -> NoDup (somes H) /\ forall x, In x (somes H) -> In x G /\ ~ In x F.
Proof.
  induction 1 as [|x c G H D _ IH]; intros N; [split; [constructor|intros x []]|]. inversion N as [|? ? N1 N2]; subst.
  destruct (IH N2) as (A & B). destruct D as [->|(-> & D)]; cbn [somes].
  - split; [exact A|]. intros y Iy. destruct (B y Iy). split; [right; assumption|assumption].
  - split.
    + constructor; [|exact A]. intros I. destruct (B x I). contradiction.
    + intros y [<-|Iy]; [split; [left; reflexivity|exact D]|]. destruct (B y Iy). split; [right; assumption|assumption].
Qed.

(** ** The whole list *)
(** What the result looks like: [F] the candidates, [B] the others, [Y ++ Z] the first cells. *)
Record arranged (os : list bobj) (uf : nat -> Q) (odd : bool) (mmf ms0 : nat) (r : slist) (P F B Y Z : list nat) : Prop := {
  a_uns : r_uns r = Z.of_nat (length P);
  a_perm : Permutation (F ++ B) P;
  a_ne : P <> [] -> F <> [];
  a_best : Forall (fun x => prio os x = bp os) F;
  a_le : Forall (fun x => (bp os <= prio os x)%Z) P;
  a_left : left_ok uf ms0 (fun x => prio os x = bp os) F B;
  a_max : (length F <= ms0)%nat;
  a_nol : r_nol r = length F;
  a_first : firstn (length P) (r_list r) = map Some (Y ++ Z);
  a_len : length Y = length F;
  a_lenz : length Z = length B;
  a_Y : Forall (fun x => In x P /\ prio os x = bp os) Y;
  a_Z : Forall (fun x => In x P) Z;
  a_plain : (mmf = 0%nat \/ (length F < ms0 /\ length P < length os)%nat \/ (forall x, In x P -> prio os x = bp os -> In x F)) ->
            Permutation F Y /\ Z = B;
  a_sorted : mmf = 0%nat -> forall i j a b, (i < j)%nat -> nth_error Y i = Some a -> nth_error Y j = Some b ->
            if odd then uf a <= uf b else uf b <= uf a }.

Lemma fold_bp os k : forall l, (k <= INT_MAX)%Z -> (l = [] -> k = INT_MAX) -> Forall (fun x => (k <= prio os x)%Z) l -> (exists x, In x l /\ prio os x = k) \/ l = [] ->
  fold_right (fun j m => Z.min (prio os j) m) INT_MAX l = k.
Proof.
  intros l K E. induction l as [|a l IH]; intros H D; cbn [fold_right]; [symmetry; apply E; reflexivity|].
  inversion H as [|? ? H1 H2]; subst x l0. destruct D as [(x & [<-|Ix] & Px)|D]; [| |discriminate].
  - assert (G : (k <= fold_right (fun j m => Z.min (prio os j) m) INT_MAX l)%Z).
    { clear -H2 K. induction H2; cbn [fold_right]; [exact K|]. cbn beta in *. lia. }
    lia.
  - assert (l <> []) by (intros ->; destruct Ix). cbn beta in H1. rewrite IH; [lia| |exact H2|left; eauto]. congruence.
Qed.
Lemma nth_map_some (l : list nat) k f : nth_error l k = Some f -> nth_error (map Some l) k = Some (Some f).
Proof. apply map_nth_error. Qed.
Lemma firstn_of {A} (L : list A) W : (forall k w, nth_error W k = Some w -> nth_error L k = Some w) -> firstn (length W) L = W.
Proof.
  revert L. induction W as [|w W IH]; intros L H; [reflexivity|].
  destruct L as [|a L]; [specialize (H O w eq_refl); discriminate|]. pose proof (H O w eq_refl) as H0. cbn in H0. injection H0 as ->.
  cbn [length firstn]. f_equal. apply IH. intros k x. exact (H (S k) x).
Qed.
Lemma nth_skip {A} (l : list A) k t : nth_error (skipn k l) t = nth_error l (k + t).
Proof. revert l; induction k as [|k IH]; intros l; [reflexivity|]. destruct l; [cbn; destruct t; reflexivity|]. cbn [skipn plus nth_error]. apply IH. Qed.
Lemma cells_nth (Ls : list nat) g t (B : list nat) e : nth_error (shape Ls g B e) (length Ls + g + t) = nth_error (map Some B ++ repeat None e) t.
Proof.
  unfold shape. rewrite nth_error_app2 by (rewrite map_length; lia). rewrite nth_error_app2 by (rewrite map_length, repeat_length; lia).
  rewrite map_length, repeat_length. f_equal. lia.
Qed.

(** The last step: sort the first [tot] cells, move the others up. *)
Lemma last_step S F g B e X L U n v (odd : bool) uf : sorters_ok S -> (length F + g + length B = n)%nat ->
  (length X <= length B)%nat -> (F <> []) ->
  L = map Some F ++ map Some X ++ skipn (length X) (repeat None g ++ map Some B ++ repeat None e) ->
  (length F + length X <= length U)%nat ->
  v = (fun x => if odd then uf x else - uf x) ->
  exists Y Z L' U', (do ' (U, L) <- sortQ S (length F + length X) U L; do ' (L, i) <- move (n - (length F + g)) (length F) (length F + g) L;
       do _ <- chk (Nat.eqb i (length F + length B)); Ok (U, L)) = Ok (U', L') /\
    firstn (length F + length B) L' = map Some (Y ++ Z) /\ length Y = length F /\ length Z = length B /\
    (forall y, In y (Y ++ Z) -> In y (F ++ X ++ B)) /\ (forall y, In y Y -> In y (F ++ X)) /\
    (X = [] -> Permutation F Y /\ Z = B /\ ((forall i f, nth_error F i = Some f -> nth_error U i = Some (v f)) ->
       forall i j a b, (i < j)%nat -> nth_error Y i = Some a -> nth_error Y j = Some b -> if odd then uf a <= uf b else uf b <= uf a)).
Proof.
  intros SO EN LX NF EL LU EV.
  set (R := repeat (None : cell) g ++ map Some B ++ repeat None e) in *.
  assert (F1 : firstn (length F + length X) L = map Some (F ++ X)).
  { rewrite EL, app_assoc, <- map_app, <- app_length, <- (map_length Some (F ++ X)), firstn_app, Nat.sub_diag, firstn_O, app_nil_r. apply firstn_all. }
  assert (F2 : skipn (length F + length X) L = skipn (length X) R).
  { rewrite EL, app_assoc, <- map_app, <- app_length, <- (map_length Some (F ++ X)), skipn_app, Nat.sub_diag, skipn_all. reflexivity. }
  assert (LR : length R = (g + length B + e)%nat) by (unfold R; rewrite !app_length, map_length, !repeat_length; lia).
  destruct (sortQ_ok S (F ++ X) L U (length F + length X) v SO F1 (app_length _ _) LU) as (W & U' & E1 & PW & LU' & SW).
  rewrite E1. cbn [bind]. rewrite F2.
  assert (LW : length W = (length F + length X)%nat) by (rewrite <- (Permutation_length PW); apply app_length).
  set (L1 := map Some W ++ skipn (length X) R).
  assert (LL : length L1 = (n + e)%nat) by (unfold L1; rewrite app_length, map_length, skipn_length, LW, LR; lia).
  destruct (move_ok (n - (length F + g)) (length F) (length F + g) L1) as (L2 & E2 & LL2 & G1 & G2); [lia|lia|].
  rewrite E2. cbn [bind]. replace (length F + (n - (length F + g)))%nat with (length F + length B)%nat by lia.
  rewrite Nat.eqb_refl. cbn [chk bind].
  set (Y := firstn (length F) W).
  (* the cells moved up *)
  assert (CZ : forall t b, nth_error B t = Some b -> exists z, nth_error L1 (length F + g + t) = Some (Some z) /\
            (z = b \/ In z W) /\ (X = [] -> z = b)).
  { intros t b Nb. unfold L1. destruct (Nat.ltb_spec (length F + g + t) (length W)) as [Lt|Ge].
    - rewrite nth_error_app1 by (rewrite map_length; lia).
      destruct (nth_error W (length F + g + t)) as [z|] eqn:Nz; [|apply nth_error_None in Nz; lia].
      exists z. split; [exact (nth_map_some _ _ _ Nz)|]. split; [right; exact (nth_error_In _ _ Nz)|].
      intros XX. rewrite XX in LW. cbn [length] in LW. lia.
    - rewrite nth_error_app2 by (rewrite map_length; lia). rewrite map_length, nth_skip.
      replace (length X + (length F + g + t - length W))%nat with (g + t)%nat by lia.
      exists b. split; [|auto]. unfold R. rewrite nth_error_app2 by (rewrite repeat_length; lia). rewrite repeat_length.
      replace (g + t - g)%nat with t by lia. rewrite nth_error_app1 by (rewrite map_length; apply nth_error_Some; congruence).
      exact (nth_map_some _ _ _ Nb). }
  assert (EZ : exists Z, length Z = length B /\ (forall t z, nth_error Z t = Some z -> nth_error L1 (length F + g + t) = Some (Some z)) /\
            (forall z, In z Z -> In z B \/ In z W) /\ (X = [] -> Z = B)).
  { assert (Gen : forall k Bk, (forall t b, nth_error Bk t = Some b -> exists z, nth_error L1 (k + t) = Some (Some z) /\ (z = b \/ In z W) /\ (X = [] -> z = b)) ->
       exists Z, length Z = length Bk /\ (forall t z, nth_error Z t = Some z -> nth_error L1 (k + t) = Some (Some z)) /\
            (forall z, In z Z -> In z Bk \/ In z W) /\ (X = [] -> Z = Bk)).
    { intros k Bk. revert k. induction Bk as [|b Bk IH]; intros k H.
      - exists []. split; [reflexivity|]. split; [intros t z Nz; destruct t; discriminate|]. split; [intros z []|reflexivity].
      - destruct (H O b eq_refl) as (z & Z1 & Z2 & Z3). destruct (IH (1 + k)%nat) as (Zs & S1 & S2 & S3 & S4).
        + intros t b' Nb. destruct (H (1 + t)%nat b' Nb) as (z' & X1 & X2). exists z'. split; [|exact X2]. rewrite <- X1. f_equal. lia.
        + exists (z :: Zs). split; [cbn [length]; lia|]. split.
          { intros [|t] z' N'; [cbn in N'; injection N' as <-; exact Z1|]. cbn in N'. rewrite <- (S2 t z' N'). f_equal. lia. }
          split.
          { intros z' [<-|I']; [destruct Z2 as [->|Z2]; [left; left; reflexivity|right; exact Z2]|]. destruct (S3 z' I'); [left; right; assumption|right; assumption]. }
          intros XX. rewrite (Z3 XX), (S4 XX). reflexivity. }
    exact (Gen _ _ CZ). }
  destruct EZ as (Z & LZ & NZ & IZ & XZ).
  assert (LY : length Y = length F) by (unfold Y; rewrite firstn_length; lia).
  exists Y, Z, L2, U'. split; [reflexivity|]. split.
  { rewrite <- LZ, <- LY, <- app_length, <- (map_length Some (Y ++ Z)). apply firstn_of. intros k w Nw.
    rewrite nth_error_map in Nw. destruct (nth_error (Y ++ Z) k) as [y|] eqn:Ny; [|discriminate]. cbn in Nw. injection Nw as <-.
    destruct (Nat.ltb_spec k (length F)) as [Lt|Ge].
    - rewrite G1 by lia. unfold L1. rewrite nth_error_app1 by (rewrite map_length; lia). apply nth_map_some.
      rewrite nth_error_app1 in Ny by lia. rewrite <- (firstn_skipn (length F) W). fold Y. rewrite nth_error_app1 by lia. exact Ny.
    - rewrite nth_error_app2 in Ny by lia. rewrite LY in Ny. assert (k - length F < length B)%nat by (rewrite <- LZ; apply nth_error_Some; congruence).
      replace k with (length F + (k - length F))%nat by lia. rewrite G2 by lia. apply NZ. exact Ny. }
  split; [exact LY|]. split; [exact LZ|].
  assert (YW : forall y, In y Y -> In y W) by (intros y Iy; unfold Y in Iy; rewrite <- (firstn_skipn (length F) W); apply in_app_iff; left; exact Iy).
  assert (WX : forall y, In y W -> In y (F ++ X)) by (intros y Iy; exact (Permutation_in _ (Permutation_sym PW) Iy)).
  split.
  { intros y Iy. rewrite app_assoc. apply in_app_iff. apply in_app_iff in Iy. destruct Iy as [Iy|Iy]; [left; auto|]. destruct (IZ y Iy); [right; assumption|left; auto]. }
  split; [intros y Iy; auto|].
  intros XX. assert (EY : Y = W).
  { unfold Y. rewrite XX in LW. cbn [length] in LW. rewrite <- (firstn_all W) at 2. f_equal. lia. }
  split; [rewrite XX, app_nil_r in PW; rewrite EY; exact PW|]. split; [exact (XZ XX)|].
  intros HU i j a b Lt Na Nb. rewrite EY in Na, Nb.
  assert (HV : forall i f, nth_error (F ++ X) i = Some f -> nth_error U i = Some (v f)) by (rewrite XX, app_nil_r; exact HU).
  pose proof (SW HV i j a b Lt Na Nb) as Q0. rewrite EV in Q0. destruct odd; [exact Q0|]. lra.
Qed.

Lemma perm_len_le (X F B P : list nat) : Permutation (F ++ B) P -> NoDup X -> (forall x, In x X -> In x P /\ ~ In x F) -> (length X <= length B)%nat.
Proof.
  intros PP N H. apply NoDup_incl_length; [exact N|]. intros x Ix. destruct (H x Ix) as (I1 & I2).
  apply (Permutation_in _ (Permutation_sym PP)) in I1. apply in_app_iff in I1. destruct I1; [contradiction|assumption].
Qed.
Lemma firstn_map0 {A} (l : list A) : firstn 0 l = []. Proof. reflexivity. Qed.

Section Finish.
Variables (os : list bobj) (S : sorters) (q : sopts) (mmf : nat) (um dm : Q) (pc : pcosts) (ms0 e : nat).
Let n := length os.
Let uf := ufn os q um dm pc.
Hypothesis SO : sorters_ok S.
Lemma finish_ok P F g B G s U : (0 < ms0)%nat -> ms0 = Nat.min (Nat.max (s_strong q) (s_root q)) n -> P = unsat_from 0 os ->
  inv os q mmf um dm pc ms0 e n P F g B G s -> length U = (n + e)%nat ->
  (forall i f, nth_error F i = Some f -> nth_error U i = Some (if negb (odd_crit (s_crit q)) then - uf f else uf f)) ->
  exists r Y Z, finish S q n mmf s (length F) (shape F g B e) U (Nat.min ms0 (length F + g)) = Ok r /\
    arranged os uf (odd_crit (s_crit q)) mmf ms0 r P F B Y Z.
Proof.
  intros Hms Ems EP I LU HU. destruct I as [Il Ip In_ Im Ilu Iu Ic Ilf Ileft Iperm Ine Iinit Ilt Ind Iuns Ibest Ile Iint Isnd].
  change (length os) with n in In_, Ilu. assert (Hbp : bp os = k_best s).
  { unfold bp. rewrite <- EP. apply fold_bp; [exact Iint|exact Iinit|exact Ile|].
    destruct F as [|f F]; [right; destruct P; [reflexivity|exfalso; apply Ine; [discriminate|reflexivity]]|].
    left. exists f. split; [apply (Permutation_in _ Iperm); left; reflexivity|]. inversion Ibest; assumption. }
  assert (Lm : (length F <= ms0)%nat) by lia.
  assert (LP : length P = (length F + length B)%nat) by (rewrite <- (Permutation_length Iperm); apply app_length).
  unfold finish. destruct (Nat.eqb_spec (length F) 0) as [Z0|N0].
  - assert (F = []) by (destruct F; [reflexivity|cbn in Z0; lia]). subst F.
    assert (P = []) by (destruct P; [reflexivity|exfalso; apply Ine; [discriminate|reflexivity]]). clear EP. subst P. cbn [length] in *.
    assert (B = []) by (destruct B; [reflexivity|cbn in LP; lia]). subst B.
    eexists _, [], []. split; [reflexivity|]. constructor; cbn [r_uns r_nol r_list]; cbn [length firstn app map]; try reflexivity; try constructor; try lia.
    + congruence.
    + intros _ _ b [].
    + intros _ b [].
    + constructor.
    + reflexivity.
    + intros _ i j a b _ Na. destruct i; discriminate Na.
  - assert (NF : F <> []) by (intros ->; cbn in N0; lia).
    assert (NX : Nat.eqb (Nat.max (s_strong q) (s_root q)) 0 = false) by (apply Nat.eqb_neq; lia).
    assert (NDFB : NoDup (F ++ B)) by (eapply Permutation_NoDup; [apply Permutation_sym, Iperm|exact Ind]).
    assert (NDF : NoDup F) by (clear -NDFB; induction F; [constructor|]; inversion NDFB; subst; constructor; [intros X; apply H1, in_app_iff; left; exact X|auto]).
    (* the two ways to reach the last step *)
    assert (K : exists F' X L1 U1 nnt, (if (Nat.ltb 0 mmf && Nat.leb (Nat.min ms0 (length F + g)) (length F))%bool then
         do ' (L2, U2, nnt) <- compact false mmf 0 0 (k_l2 s) (k_u2 s);
         if Nat.eqb nnt 0 then Ok (shape F g B e, U, length F, nnt)
         else
           do ' (L, U) <- sortI S (length F) (shape F g B e) U;
           do ' (L2, U2) <- sortI S nnt L2 U2;
           do ' (U, L2) <- merge mmf n 0 0 0 L U L2 U2;
           do ' (L, U, tot) <- force nnt 0 (length F) L U L2 U2;
           Ok (L, U, tot, nnt)
       else Ok (shape F g B e, U, length F, k_nnt s)) = Ok (L1, U1, (length F' + length X)%nat, nnt) /\
       Permutation F F' /\ L1 = map Some F' ++ map Some X ++ skipn (length X) (repeat None g ++ map Some B ++ repeat None e) /\
       (length F' + length X <= length U1)%nat /\ (length X <= length B)%nat /\
       (forall x, In x X -> In x P /\ prio os x = bp os /\ ~ In x F) /\
       ((Nat.ltb 0 mmf && Nat.leb (Nat.min ms0 (length F + g)) (length F))%bool = false -> F' = F /\ X = [] /\ U1 = U)).
    { destruct (Nat.ltb 0 mmf && Nat.leb (Nat.min ms0 (length F + g)) (length F))%bool eqn:Ef.
      - apply andb_true_iff in Ef. destruct Ef as (Em & _). apply Nat.ltb_lt in Em.
        destruct Isnd as (S1 & S2 & S3 & S4 & S5 & S6 & S7 & S8). rewrite S1.
        destruct (compact_full false G (mmf - length G) [] 0 (infeas os) (length G) 0 mmf (k_u2 s)) as (U2 & E2 & L2 & V2); [lia|lia|lia| |].
        { intros i f Nf. cbn [andb]. apply S4. exact Nf. }
        rewrite E2. cbn [bind]. destruct (Nat.eqb_spec (length G) 0) as [G0|G0].
        { exists F, [], (shape F g B e), U, (length G). cbn [length map app skipn]. rewrite Nat.add_0_r. split; [reflexivity|].
          split; [reflexivity|]. split; [reflexivity|]. split; [lia|]. split; [lia|]. split; [intros x []|discriminate]. }
        destruct (sortI_ok S F g B e U SO NDF) as (F' & U1 & E3 & PF & AF & LU1); [lia|]. rewrite E3. cbn [bind].
        destruct (sortI_ok S G (mmf - length G) [] 0 U2 SO S5) as (G' & U3 & E4 & PG & AG & LU3); [lia|]. rewrite E4. cbn [bind].
        assert (LG : length G' = length G) by (symmetry; apply Permutation_length, PG).
        assert (LF : length F' = length F) by (symmetry; apply Permutation_length, PF).
        assert (GN : Forall (fun x => (x < n)%nat) G').
        { apply Forall_forall. intros x Ix. apply (Permutation_in _ (Permutation_sym PG)) in Ix. destruct (S6 x Ix) as (Xp & _).
          rewrite Forall_forall in Ilt. exact (Ilt x Xp). }
        destruct (merge_ok mmf F' g B e U3 G' n AF AG ltac:(lia) ltac:(lia) GN ltac:(lia) n 0 0 0 [] [] G' [] F' U1) as (U4 & H & E5 & HH & LU4);
          try reflexivity; try lia; [constructor|apply Forall_forall; intros; lia|constructor|apply Forall_forall; intros; lia|left; reflexivity|].
        assert (ES : shape G' (mmf - length G) [] 0 = [] ++ map Some G' ++ repeat None (mmf - length G')).
        { unfold shape. cbn [map repeat app]. rewrite app_nil_r, LG. reflexivity. }
        rewrite ES, E5. cbn [bind].
        destruct (somes_in F' G' H HH) as (ND & SI).
        { eapply Permutation_NoDup; [exact PG|exact S5]. }
        assert (SX : forall x, In x (somes H) -> In x P /\ prio os x = bp os /\ ~ In x F).
        { intros x Ix. destruct (SI x Ix) as (X1 & X2). apply (Permutation_in _ (Permutation_sym PG)) in X1. destruct (S6 x X1) as (X3 & X4).
          split; [exact X3|]. split; [rewrite Hbp; exact X4|]. intros X5. apply X2, (Permutation_in _ PF X5). }
        assert (LX : (length (somes H) <= length B)%nat).
        { apply (perm_len_le _ F B P Iperm ND). intros x Ix. destruct (SX x Ix) as (X1 & _ & X2). auto. }
        assert (LH : length H = length G) by (rewrite <- LG; symmetry; eapply Forall2_len; exact HH).
        destruct (force_ok U3 H 0 (map Some F') (repeat None g ++ map Some B ++ repeat None e) [] (repeat None (mmf - length G')) U4) as (U5 & E6 & LU5);
          [lia|reflexivity|rewrite !app_length, map_length, !repeat_length; lia|rewrite map_length; lia|].
        rewrite map_length, LF in E6. cbn [app] in E6. rewrite <- LH. unfold shape. rewrite E6. cbn [bind].
        exists F', (somes H). eexists _, U5, (length H). rewrite LF. split; [reflexivity|]. split; [exact PF|]. split; [reflexivity|]. split; [lia|].
        split; [exact LX|]. split; [exact SX|discriminate].
      - exists F, [], (shape F g B e), U, (k_nnt s). cbn [length map app skipn]. rewrite Nat.add_0_r. split; [reflexivity|].
        split; [reflexivity|]. split; [reflexivity|]. split; [lia|]. split; [lia|]. split; [intros x []|]. intros _. auto. }
    destruct K as (F' & X & L1 & U1 & nnt & -> & PF & EL & LU1 & LX & SX & Plain). cbn [bind].
    assert (LF : length F' = length F) by (symmetry; apply Permutation_length, PF).
    destruct (last_step S F' g B e X L1 U1 n (fun x => if odd_crit (s_crit q) then uf x else - uf x) (odd_crit (s_crit q)) uf SO)
      as (Y & Z & L2 & U2 & E2 & Q1 & Q2 & Q3 & Q4 & Q5 & Q6); [lia|exact LX|intros ->; apply NF; cbn in LF; destruct F; [reflexivity|discriminate]|exact EL|exact LU1|reflexivity|].
    rewrite Ip. rewrite Iuns, LP. rewrite LF in *.
    destruct (sortQ S (length F + length X) U1 L1) as [[U3 L3]| | | | | | |]; try discriminate E2. cbn [bind] in E2 |- *.
    destruct (move (n - (length F + g)) (length F) (length F + g) L3) as [[L4 i4]| | | | | | |]; try discriminate E2. cbn [bind] in E2 |- *.
    destruct (chk (Nat.eqb i4 (length F + length B))) as [[]| | | | | | |]; try discriminate E2. cbn [bind] in E2 |- *.
    assert (L4 = L2) by congruence. subst L4. rewrite NX. eexists _, Y, Z. split; [reflexivity|].
    assert (IF : forall x, In x F -> In x P) by (intros x Ix; apply (Permutation_in _ Iperm), in_app_iff; left; exact Ix).
    assert (IB : forall x, In x B -> In x P) by (intros x Ix; apply (Permutation_in _ Iperm), in_app_iff; right; exact Ix).
    assert (IF' : forall x, In x F' -> In x F) by (intros x Ix; exact (Permutation_in _ (Permutation_sym PF) Ix)).
    constructor; cbn [r_uns r_nol r_list]; try assumption; try reflexivity.
    + rewrite LP. reflexivity.
    + rewrite Hbp. exact Ibest.
    + rewrite Hbp. exact Ile.
    + rewrite Hbp. exact Ileft.
    + rewrite LP. exact Q1.
    + apply Forall_forall. intros y Iy. apply Q5 in Iy. apply in_app_iff in Iy. destruct Iy as [Iy|Iy].
      * apply IF' in Iy. split; [auto|]. rewrite Hbp. rewrite Forall_forall in Ibest. exact (Ibest y Iy).
      * destruct (SX y Iy) as (A1 & A2 & _). auto.
    + apply Forall_forall. intros y Iy. assert (Iz : In y (F' ++ X ++ B)) by (apply Q4, in_app_iff; right; exact Iy).
      apply in_app_iff in Iz. destruct Iz as [Iz|Iz]; [auto|]. apply in_app_iff in Iz. destruct Iz as [Iz|Iz]; [destruct (SX y Iz); assumption|auto].
    + intros C. assert (X0 : X = []).
      { destruct C as [C|[C|C]].
        - apply Plain. rewrite C. reflexivity.
        - apply Plain. apply andb_false_iff. right. apply Nat.leb_gt. lia.
        - destruct X as [|x X]; [reflexivity|]. destruct (SX x (or_introl eq_refl)) as (A1 & A2 & A3). exfalso. apply A3, C; assumption. }
      destruct (Q6 X0) as (A1 & A2 & _). split; [eapply Permutation_trans; eassumption|exact A2].
    + intros M0. destruct (Plain) as (EF & X0 & EU); [rewrite M0; reflexivity|]. destruct (Q6 X0) as (_ & _ & A3).
      intros i j a b Lt Na Nb. apply (A3) with (i := i) (j := j); try assumption.
      intros i' f Nf. rewrite EU. rewrite EF in Nf. rewrite (HU i' f Nf). destruct (odd_crit (s_crit q)); reflexivity.
Qed.
End Finish.

Lemma unsat_from_in os x i : In x (unsat_from i os) <-> exists k o, x = (i + k)%nat /\ nth_error os k = Some o /\ 0 < o_inf o.
Proof.
  revert i. induction os as [|o os IH]; intros i; cbn [unsat_from].
  - split; [intros []|]. intros (k & o & _ & N & _). destruct k; discriminate.
  - assert (A : In x (unsat_from (S i) os) <-> exists k o', x = (i + S k)%nat /\ nth_error os k = Some o' /\ 0 < o_inf o').
    { rewrite IH. split; intros (k & o' & E & R); exists k, o'; (split; [lia|exact R]). }
    destruct (Qltb 0 (o_inf o)) eqn:Q0.
    + cbn [In]. rewrite A. apply Qltb_lt in Q0. split.
      * intros [<-|(k & o' & R)]; [exists O, o; split; [lia|]; split; [reflexivity|exact Q0]|exists (S k), o'; exact R].
      * intros ([|k] & o' & E & N & R); [left; lia|right; exists k, o'; auto].
    + rewrite A. apply Qltb_ge in Q0. split.
      * intros (k & o' & R). exists (S k), o'. exact R.
      * intros ([|k] & o' & E & N & R); [|exists k, o'; auto]. cbn in N. injection N as <-. exfalso. lra.
Qed.
Lemma unsat_from_0 os x : In x (unsat_from 0 os) <-> unsat os x.
Proof. rewrite unsat_from_in. unfold unsat. cbn [plus]. split; [intros (k & o & -> & R); eauto|intros (o & R); eauto]. Qed.
Lemma unsat_from_nodup os : forall i, NoDup (unsat_from i os).
Proof.
  induction os as [|o os IH]; intros i; cbn [unsat_from]; [constructor|]. destruct (Qltb 0 (o_inf o)); [|auto].
  constructor; [|auto]. rewrite unsat_from_in. intros (k & o' & E & _). lia.
Qed.

Definition pc_used (pc : pcosts) (os : list bobj) : pcosts := if Nat.ltb (length (p_un pc)) (length os) then pc_init (length os) else pc.
Lemma setup_ok_uf S q cap pc os : setup_pre S q cap pc os ->
  exists r pc' uf, setupList S q true cap pc os = Ok (r, pc') /\
    (pc' = pc_used pc os /\ (~ hopeless os -> forall i, uf i = ufn os q (fst (multipliers pc')) (snd (multipliers pc')) pc' i)) /\
    (ps_crit (s_crit q) = false -> forall i o, nth_error os i = Some o -> uf i = o_inf o) /\ (ps_crit (s_crit q) = false -> forall i, 0 <= uf i) /\
    ((hopeless os /\ r_uns r = (-1)%Z) \/
     (~ hopeless os /\
      (Nat.max (s_strong q) (s_root q) <> O -> exists F B Y Z, arranged os uf (odd_crit (s_crit q)) (most_fra q (ms_of q os)) (ms_of q os) r (unsat_from 0 os) F B Y Z) /\
      (Nat.max (s_strong q) (s_root q) = O -> r_uns r = Z.of_nat (length (unsat_from 0 os)) /\ r_nol r = O /\
         (unsat_from 0 os <> [] -> exists x, nth_error (r_list r) 0 = Some (Some x) /\ best os x)))).
Proof.
  intros [SO SOME CAP PC FRAC INF INT]. unfold setupList. cbn [negb].
  assert (N0 : length os <> O) by (destruct os; [congruence|cbn; lia]).
  replace (negb (Nat.eqb (length os) 0)) with true by (symmetry; apply negb_true_iff, Nat.eqb_neq, N0). cbn [chk bind].
  replace (Nat.ltb cap (length os)) with false by (symmetry; apply Nat.ltb_ge, CAP).
  set (pc0 := if Nat.ltb (length (p_un pc)) (length os) then pc_init (length os) else pc).
  assert (HP : exists m, pc_ok m pc0 /\ (length os <= m)%nat).
  { unfold pc0. destruct (Nat.ltb_spec (length (p_un pc)) (length os)) as [Lt|Ge].
    - exists (length os). split; [|lia]. unfold pc_ok, pc_init. cbn. rewrite !repeat_length. auto.
    - eauto. }
  fold (ms_of q os). set (mmf := most_fra q (ms_of q os)). destruct (multipliers pc0) as [um dm] eqn:EM.
  assert (MS : (ms_of q os <= length os)%nat) by (unfold ms_of; lia).
  set (e := (cap - length os)%nat).
  destruct (scan_ok os q mmf um dm pc0 (ms_of q os) e HP MS INT os [] [] [] (length os) [] [] _ eq_refl (inv_init os q mmf um dm pc0 (ms_of q os) e MS N0))
    as [((o & I1 & I2) & s' & E)|(I1 & s' & F & g & B & G & E & I)].
  - cbn [length] in E. rewrite E. cbn [bind]. eexists _, pc0, (fun i => qmx 0 (infeas os i)). split; [reflexivity|]. split; [split; [reflexivity|intros NH; exfalso; apply NH; exists o; auto]|]. split.
    + intros _ i o' No. unfold infeas. rewrite No. unfold qmx. rewrite Forall_forall in INF. specialize (INF o' (nth_error_In _ _ No)). cbn beta in INF.
      destruct (Qltb (o_inf o') 0) eqn:Q0; [apply Qltb_lt in Q0; lra|reflexivity].
    + split; [intros _ i; unfold qmx; destruct (Qltb (infeas os i) 0) eqn:Q0; [lra|apply Qltb_ge in Q0; exact Q0]|].
      left. split; [exists o; auto|reflexivity].
  - cbn [length app] in E, I. rewrite E. cbn [bind].
    assert (NH : ~ hopeless os) by (intros (o & Io & Ho); specialize (I1 o Io); unfold huge in I1; lra).
    assert (U1 : ps_crit (s_crit q) = false -> forall i o, nth_error os i = Some o -> ufn os q um dm pc0 i = o_inf o).
    { intros C i o No. destruct (useful_ok os q um dm pc0 (ms_of q os) HP MS i o No) as (v2 & X & _). unfold ufn. rewrite No. rewrite X. unfold usefulness in X.
      rewrite C in X. destruct (rd i (p_un pc0)); try discriminate. destruct (rd i (p_dn pc0)); try discriminate. cbn [bind] in X. congruence. }
    assert (U2 : ps_crit (s_crit q) = false -> forall i, 0 <= ufn os q um dm pc0 i).
    { intros C i. destruct (nth_error os i) as [o|] eqn:No.
      - rewrite (U1 C i o No). rewrite Forall_forall in INF. exact (INF o (nth_error_In _ _ No)).
      - unfold ufn. rewrite No. lra. }
    pose proof I as I0. destruct I0 as [Il Ip In_ Im Ilu Iu Ic Ilf Ileft Iperm Ine Iinit Ilt Ind Iuns Ibest Ile Iint Isnd].
    replace (Nat.min (k_ms s') (k_put s')) with (Nat.min (ms_of q os) (length F + g)) by lia. rewrite Il.
    destruct (Nat.eq_dec (Nat.max (s_strong q) (s_root q)) 0) as [M0|M1].
    + assert (Z0 : ms_of q os = O) by (unfold ms_of; lia). rewrite Z0. cbn [Nat.min compact bind]. unfold finish. cbn [Nat.eqb bind].
      eexists _, pc0, (ufn os q um dm pc0). split; [reflexivity|]. split; [split; [reflexivity|intros _ i; rewrite EM; reflexivity]|]. split; [exact U1|]. split; [exact U2|]. right. split; [exact NH|].
      split; [intros X; contradiction|]. intros _. cbn [r_uns r_nol r_list]. rewrite Iuns. split; [reflexivity|]. split; [reflexivity|].
      intros NP. specialize (Ine NP). destruct F as [|f F]; [congruence|]. exists f. split; [reflexivity|].
      inversion Ibest as [|? ? Bf _]; subst x l. assert (If : In f (unsat_from 0 os)) by (apply (Permutation_in _ Iperm); left; reflexivity).
      split; [apply unsat_from_0, If|]. intros j Uj. rewrite Bf. rewrite Forall_forall in Ile. apply Ile, unsat_from_0, Uj.
    + assert (Hms : (0 < ms_of q os)%nat) by (unfold ms_of; lia).
      destruct (compact_full (negb (odd_crit (s_crit q))) F g B e (ufn os q um dm pc0) (length F) 0 (Nat.min (ms_of q os) (length F + g)) (k_use s')) as (U & E2 & LU & HU);
        [lia|lia|lia| |].
      { intros i f Nf. rewrite Nat.ltb_irrefl || idtac. replace (Nat.ltb i 0) with false by (symmetry; apply Nat.ltb_ge; lia). rewrite andb_false_r. exact (Iu i f Nf). }
      rewrite E2. cbn [bind].
      destruct (finish_ok os S q mmf um dm pc0 (ms_of q os) e SO (unsat_from 0 os) F g B G s' U Hms eq_refl eq_refl I ltac:(lia) HU) as (r & Y & Z & E3 & A).
      rewrite E3. cbn [bind]. exists r, pc0, (ufn os q um dm pc0). split; [reflexivity|]. split; [split; [reflexivity|intros _ i; rewrite EM; reflexivity]|]. split; [exact U1|]. split; [exact U2|]. right.
      split; [exact NH|]. split; [intros _; exists F, B, Y, Z; exact A|intros X; contradiction].
Qed.
Lemma setup_ok S q cap pc os : setup_pre S q cap pc os ->
  exists r pc' uf, setupList S q true cap pc os = Ok (r, pc') /\
    (ps_crit (s_crit q) = false -> forall i o, nth_error os i = Some o -> uf i = o_inf o) /\ (ps_crit (s_crit q) = false -> forall i, 0 <= uf i) /\
    ((hopeless os /\ r_uns r = (-1)%Z) \/
     (~ hopeless os /\
      (Nat.max (s_strong q) (s_root q) <> O -> exists F B Y Z, arranged os uf (odd_crit (s_crit q)) (most_fra q (ms_of q os)) (ms_of q os) r (unsat_from 0 os) F B Y Z) /\
      (Nat.max (s_strong q) (s_root q) = O -> r_uns r = Z.of_nat (length (unsat_from 0 os)) /\ r_nol r = O /\
         (unsat_from 0 os <> [] -> exists x, nth_error (r_list r) 0 = Some (Some x) /\ best os x)))).
Proof. intros HP. destruct (setup_ok_uf S q cap pc os HP) as (r & pc' & uf & E & _ & R). exists r, pc', uf. split; [exact E|exact R]. Qed.
