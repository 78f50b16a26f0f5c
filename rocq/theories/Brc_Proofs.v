(** Lemmas for the candidate list. *)
From Verif Require Import Base Arr Itf_Model Oad_Model Oad_Proofs2 Brc_Model Brc_Spec.
#[local] Open Scope Q_scope.

(** ** Arrays *)
Lemma rd_mid {A} (p s : list A) c : rd (length p) (p ++ c :: s) = Ok c.
Proof. unfold rd. rewrite nth_error_app2 by lia. rewrite Nat.sub_diag. reflexivity. Qed.
Lemma lset_mid {A} (p s : list A) c v : lset (length p) v (p ++ c :: s) = Ok (p ++ v :: s).
Proof.
  rewrite lset_ok by (rewrite app_length; cbn [length]; lia).
  rewrite firstn_app, Nat.sub_diag, firstn_all, firstn_O, app_nil_r.
  rewrite skipn_app. replace (S (length p) - length p)%nat with 1%nat by lia.
  rewrite skipn_all2 by lia. reflexivity.
Qed.
Lemma rd_mid' {A} k (p s : list A) c : length p = k -> rd k (p ++ c :: s) = Ok c.
Proof. intros <-. apply rd_mid. Qed.
Lemma lset_mid' {A} k (p s : list A) c v : length p = k -> lset k v (p ++ c :: s) = Ok (p ++ v :: s).
Proof. intros <-. apply lset_mid. Qed.
Lemma lset_any {A} k v (l : list A) : (k < length l)%nat -> exists l', lset k v l = Ok l' /\ length l' = length l.
Proof. intros H. rewrite lset_ok by exact H. eexists. split; [reflexivity|]. apply upd_length, H. Qed.
Lemma lset_nth {A} k v (l l' : list A) : lset k v l = Ok l' ->
  (k < length l)%nat /\ length l' = length l /\ forall j, nth_error l' j = if Nat.eqb j k then Some v else nth_error l j.
Proof.
  unfold lset. destruct (Nat.ltb_spec k (length l)) as [H|H]; [|discriminate]. intros E.
  assert (l' = firstn k l ++ v :: skipn (S k) l) by congruence. subst l'. clear E.
  split; [exact H|]. split; [apply upd_length, H|].
  revert k H; induction l as [|a l IH]; intros k H j; [cbn in H; lia|].
  destruct k as [|k]; [destruct j; reflexivity|]. destruct j as [|j]; [reflexivity|].
  cbn [firstn skipn app nth_error Nat.eqb]. apply IH. cbn [length] in H. lia.
Qed.
Lemma lset_get {A} k v (l : list A) : (k < length l)%nat ->
  exists l', lset k v l = Ok l' /\ length l' = length l /\ forall j, nth_error l' j = if Nat.eqb j k then Some v else nth_error l j.
Proof.
  intros H. destruct (lset_any k v l H) as (l' & E & _). exists l'. split; [exact E|]. apply lset_nth in E. tauto.
Qed.
Lemma rd_lt {A} k (l : list A) : (k < length l)%nat -> exists a, rd k l = Ok a /\ nth_error l k = Some a.
Proof. intros H. unfold rd. destruct (nth_error l k) eqn:E; [eauto|]. apply nth_error_None in E. lia. Qed.
Lemma repeat_S {A} (a : A) k : repeat a (S k) = repeat a k ++ [a].
Proof. induction k as [|k IH]; [reflexivity|]. cbn [repeat app] in *. rewrite <- IH. reflexivity. Qed.

(** ** The shape of the list: candidates, free cells, the others *)
Definition shape (F : list nat) (g : nat) (B : list nat) (e : nat) : list cell :=
  map Some F ++ repeat None g ++ map Some B ++ repeat None e.
Lemma shape_len F g B e : length (shape F g B e) = (length F + g + length B + e)%nat.
Proof. unfold shape. rewrite !app_length, !map_length, !repeat_length. lia. Qed.
Lemma shape_free F g B e j : (length F <= j < length F + g)%nat -> rd j (shape F g B e) = Ok None.
Proof.
  intros H. unfold rd, shape. rewrite nth_error_app2 by (rewrite map_length; lia). rewrite map_length.
  rewrite nth_error_app1 by (rewrite repeat_length; lia).
  rewrite (nth_error_nth' _ None) by (rewrite repeat_length; lia). rewrite nth_repeat. reflexivity.
Qed.
Lemma shape_front F g B e j f : nth_error F j = Some f -> rd j (shape F g B e) = Ok (Some f).
Proof.
  intros H. unfold rd, shape. assert (L : (j < length F)%nat) by (apply nth_error_Some; congruence).
  rewrite nth_error_app1 by (rewrite map_length; lia). rewrite (map_nth_error Some _ _ H). reflexivity.
Qed.
(** Putting an object at the end of the free cells. *)
Lemma shape_put F g B e x : lset (length F + g) (Some x) (shape F (S g) B e) = Ok (shape F g (x :: B) e).
Proof.
  unfold shape. rewrite repeat_S. cbn [map].
  replace (map Some F ++ (repeat None g ++ [None]) ++ map Some B ++ repeat None e)
    with ((map Some F ++ repeat None g) ++ None :: map Some B ++ repeat None e) by (rewrite <- !app_assoc; reflexivity).
  rewrite lset_mid' by (rewrite app_length, map_length, repeat_length; reflexivity).
  rewrite <- !app_assoc. reflexivity.
Qed.
Lemma to_end_ok F g B e x : to_end x (shape F (S g) B e) (length F + S g) = Ok (shape F g (x :: B) e, (length F + g)%nat).
Proof.
  unfold to_end. rewrite Nat.add_succ_r. rewrite shape_free by lia. cbn [bind]. rewrite shape_put. reflexivity.
Qed.
(** Filling the next candidate position. *)
Lemma shape_push F g B e x : lset (length F) (Some x) (shape F (S g) B e) = Ok (shape (F ++ [x]) g B e).
Proof.
  unfold shape. cbn [repeat]. cbn [app]. rewrite lset_mid' by (rewrite map_length; reflexivity).
  rewrite map_app, <- app_assoc. reflexivity.
Qed.
Lemma shape_replace F1 f F2 g B e x : lset (length F1) (Some x) (shape (F1 ++ f :: F2) g B e) = Ok (shape (F1 ++ x :: F2) g B e).
Proof.
  unfold shape. rewrite !map_app. cbn [map]. rewrite <- !app_assoc. cbn [app].
  rewrite lset_mid' by (rewrite map_length; reflexivity). reflexivity.
Qed.

(** flush *)
Lemma flush_free F g B e : forall d U put, (d <= g)%nat ->
  flush (length F + d) (shape F g B e) U put = flush (length F) (shape F g B e) U put.
Proof.
  induction d as [|d IH]; intros U put H; [rewrite Nat.add_0_r; reflexivity|].
  rewrite Nat.add_succ_r. cbn [flush]. rewrite shape_free by lia. cbn [bind]. apply IH. lia.
Qed.
Lemma flush_front e : forall F g B U, (length F <= length U)%nat ->
  exists U', flush (length F) (shape F g B e) U (length F + g) = Ok (shape [] g (F ++ B) e, U', g) /\ length U' = length U.
Proof.
  induction F as [|f F IH] using rev_ind; intros g B U H.
  - exists U. cbn [length flush app]. split; reflexivity.
  - rewrite app_length in *. cbn [length] in *. rewrite Nat.add_1_r in *. cbn [flush].
    rewrite (shape_front (F ++ [f]) g B e (length F) f) by (rewrite nth_error_app2, Nat.sub_diag by lia; reflexivity).
    cbn [bind].
    assert (E : lset (length F) None (shape (F ++ [f]) g B e) = Ok (shape F (S g) B e)).
    { unfold shape. rewrite map_app. cbn [map]. rewrite <- !app_assoc. cbn [app].
      rewrite lset_mid' by (rewrite map_length; reflexivity). reflexivity. }
    rewrite E. cbn [bind].
    destruct (lset_any (length F) 0 U) as (U1 & E1 & L1); [lia|]. rewrite E1. cbn [bind].
    cbn [Nat.add]. rewrite shape_put. cbn [bind].
    destruct (IH g (f :: B) U1) as (U2 & E2 & L2); [lia|]. exists U2. rewrite E2. rewrite <- app_assoc. split; [reflexivity|lia].
Qed.

(** worst *)
Definition upto (U : list Q) (F : list nat) (uf : nat -> Q) : Prop :=
  forall j f, nth_error F j = Some f -> nth_error U j = Some (uf f).
Lemma worst_free F g B e uf U : upto U F uf -> forall k j check ci m, (j + k = length F)%nat -> (length F < j + m)%nat -> (0 < g)%nat ->
  worst m j (shape F g B e) U check ci = Ok (Fin 0, length F).
Proof.
  intros HU. induction k as [|k IH]; intros j check ci m J M G.
  - destruct m as [|m]; [lia|]. cbn [worst]. rewrite shape_free by lia. cbn [bind].
    replace j with (length F) by lia. reflexivity.
  - destruct m as [|m]; [lia|]. cbn [worst].
    destruct (nth_error F j) as [f|] eqn:E; [|apply nth_error_None in E; lia].
    rewrite (shape_front F g B e j f E). cbn [bind]. unfold rd. rewrite (HU j f E). cbn [bind].
    destruct (ext_ltb (Fin (uf f)) check); apply IH; lia.
Qed.
Lemma worst_full F g B e uf U : upto U F uf -> forall k j check ci, (j + k = length F)%nat ->
  (exists ch c, worst k j (shape F g B e) U check ci = Ok (ch, c) /\
     ((ch = check /\ c = ci) \/ (exists f, nth_error F c = Some f /\ ch = Fin (uf f) /\ ext_ltb ch check = true)) /\
     (forall i f, (j <= i)%nat -> nth_error F i = Some f -> ext_ltb (Fin (uf f)) ch = false)).
Proof.
  intros HU. induction k as [|k IH]; intros j check ci J.
  - exists check, ci. cbn [worst]. repeat split; [left; tauto|]. intros i f H E.
    assert (i < length F)%nat by (apply nth_error_Some; congruence). lia.
  - cbn [worst]. destruct (nth_error F j) as [f|] eqn:E; [|apply nth_error_None in E; lia].
    rewrite (shape_front F g B e j f E). cbn [bind]. unfold rd. rewrite (HU j f E). cbn [bind].
    destruct (ext_ltb (Fin (uf f)) check) eqn:C.
    + destruct (IH (S j) (Fin (uf f)) j ltac:(lia)) as (ch & c & W & D & A). exists ch, c. split; [exact W|].
      assert (K : ext_ltb (Fin (uf f)) ch = false).
      { destruct D as [(-> & _)|(f' & _ & _ & D)]; [apply ext_irr|]. apply ext_lt_asym, D. }
      split.
      * right. destruct D as [(-> & ->)|(f' & N & -> & D)].
        -- exists f. repeat split; assumption.
        -- exists f'. repeat split; [exact N|]. eapply ext_lt_trans; eassumption.
      * intros i f0 H N. destruct (Nat.eq_dec i j) as [e0|H']; [subst i|apply (A i); [lia|exact N]]. congruence.
    + destruct (IH (S j) check ci ltac:(lia)) as (ch & c & W & D & A). exists ch, c. split; [exact W|]. split; [exact D|].
      intros i f0 H N. destruct (Nat.eq_dec i j) as [e0|H']; [subst i|apply (A i); [lia|exact N]].
      assert (f0 = f) by congruence. subst f0.
      destruct D as [(-> & _)|(f' & _ & _ & D)]; [exact C|].
      eapply ext_le_le; [|exact C]. apply ext_lt_asym, D.
Qed.

Lemma nth_split_at {A} (l : list A) k a : nth_error l k = Some a -> exists l1 l2, l = l1 ++ a :: l2 /\ length l1 = k.
Proof. intros H. apply nth_error_split in H. destruct H as (l1 & l2 & H). exists l1, l2. exact H. Qed.

(** ** The scan *)
Ltac ksimp := cbn [k_list k_use k_check k_ci k_best k_ms k_put k_l2 k_u2 k_check2 k_ci2 k_uns k_nnt].
Section Scan.
Variables (uf : nat -> Q) (ms0 e n : nat).
Definition chk_ok (pr : nat -> Prop) (F : list nat) (g : nat) (B : list nat) (check : ext) (ci : nat) : Prop :=
  (check = MInf /\ ci = O /\ ((F = [] /\ forall b, In b B -> ~ pr b) \/ (ms0 = O /\ length F = 1%nat))) \/
  ((1 <= length F < ms0)%nat /\ check = Fin 0 /\ ci = length F) \/
  (length F = ms0 /\ exists f, nth_error F ci = Some f /\ check = Fin (uf f) /\ forall f', In f' F -> uf f <= uf f') \/
  (ms0 = O /\ length F = 1%nat /\ check = PInf /\ ci = O) \/
  (g = O /\ F <> []).
Definition left_ok (pr : nat -> Prop) (F B : list nat) : Prop :=
  ((0 < ms0)%nat -> (forall x, 0 <= uf x) -> forall b, In b B -> pr b -> forall f, In f F -> uf b <= uf f) /\
  ((length F < ms0)%nat -> forall b, In b B -> pr b -> uf b <= 0).

Lemma upto_push U F i : (length F < length U)%nat -> upto U F uf -> exists U', lset (length F) (uf i) U = Ok U' /\ length U' = length U /\ upto U' (F ++ [i]) uf.
Proof.
  intros L H. destruct (lset_get (length F) (uf i) U L) as (U' & E & L' & G). exists U'. repeat split; [exact E|exact L'|].
  intros j f N. rewrite G. destruct (Nat.eqb_spec j (length F)) as [e0|D].
  - subst j. rewrite nth_error_app2, Nat.sub_diag in N by lia. cbn in N. congruence.
  - apply H. assert (j < length (F ++ [i]))%nat by (apply nth_error_Some; congruence). rewrite app_length in *. cbn [length] in *.
    rewrite nth_error_app1 in N by lia. exact N.
Qed.
Lemma upto_replace U F1 f F2 i : (length F1 < length U)%nat -> upto U (F1 ++ f :: F2) uf ->
  exists U', lset (length F1) (uf i) U = Ok U' /\ length U' = length U /\ upto U' (F1 ++ i :: F2) uf.
Proof.
  intros L H. destruct (lset_get (length F1) (uf i) U L) as (U' & E & L' & G). exists U'. repeat split; [exact E|exact L'|].
  intros j x N. rewrite G. destruct (Nat.eqb_spec j (length F1)) as [e0|D].
  - subst j. rewrite nth_error_app2, Nat.sub_diag in N by lia. cbn in N. congruence.
  - apply H. destruct (Nat.lt_ge_cases j (length F1)) as [H1|H1].
    + rewrite nth_error_app1 in N |- * by lia. exact N.
    + rewrite nth_error_app2 in N |- * by lia. destruct (j - length F1)%nat eqn:X; [lia|]. exact N.
Qed.
(** After a new candidate has been put, the next position is right. *)
Lemma worst_ok (pr : nat -> Prop) F g B U ci : upto U F uf -> (1 <= length F)%nat -> (length F <= Nat.max 1 ms0)%nat -> (ms0 = 0%nat -> ci = O) ->
  exists ch c, worst (Nat.min ms0 (length F + g)) 0 (shape F g B e) U PInf ci = Ok (ch, c) /\ chk_ok pr F g B ch c.
Proof.
  intros HU L1 L2 Z. destruct (Nat.eq_dec ms0 0) as [e0|N0].
  - rewrite e0 in *. cbn [Nat.min worst Nat.max] in *. exists PInf, ci. split; [reflexivity|]. right; right; right; left.
    repeat split; [exact e0|lia|auto].
  - rewrite Nat.max_r in L2 by lia. destruct (Nat.eq_dec (length F) ms0) as [E|D].
    + rewrite E, Nat.min_l by lia. rewrite <- E.
      destruct (worst_full F g B e uf U HU (length F) 0 PInf ci eq_refl) as (ch & c & W & Dj & A).
      exists ch, c. split; [exact W|]. right; right; left. split; [exact E|].
      destruct Dj as [(-> & _)|(f & Nf & -> & _)].
      * exfalso. destruct F as [|f F]; [cbn in L1; lia|]. specialize (A O f (le_n _) eq_refl). discriminate A.
      * exists f. repeat split; [exact Nf|]. intros f' I. apply In_nth_error in I. destruct I as (i & I).
        specialize (A i f' ltac:(lia) I). cbn in A. apply Qltb_ge in A. exact A.
    + destruct g as [|g].
      * rewrite Nat.add_0_r, Nat.min_r by lia.
        destruct (worst_full F 0 B e uf U HU (length F) 0 PInf ci eq_refl) as (ch & c & W & _).
        exists ch, c. split; [exact W|]. do 4 right. split; [reflexivity|]. intros ->. cbn in L1. lia.
      * exists (Fin 0), (length F). split.
        -- eapply worst_free with (k := length F); [exact HU|lia|lia|lia].
        -- right; left. repeat split; lia.
Qed.

Lemma first_list_ok (pr : nat -> Prop) i s F g B :
  k_list s = shape F (S g) B e -> k_put s = (length F + S g)%nat -> (length F + S g + length B = n)%nat ->
  k_ms s = Nat.min ms0 (k_put s) -> length (k_use s) = (n + e)%nat -> upto (k_use s) F uf ->
  chk_ok pr F (S g) B (k_check s) (k_ci s) -> (length F <= Nat.max 1 ms0)%nat -> left_ok pr F B -> pr i ->
  exists F' g' B' s', first_list i (uf i) s = Ok s' /\
    k_list s' = shape F' g' B' e /\ k_put s' = (length F' + g')%nat /\ (length F' + g' + length B' = n)%nat /\
    k_ms s' = Nat.min ms0 (k_put s') /\ length (k_use s') = (n + e)%nat /\ upto (k_use s') F' uf /\
    chk_ok pr F' g' B' (k_check s') (k_ci s') /\ (length F' <= Nat.max 1 ms0)%nat /\ left_ok pr F' B' /\
    Permutation (F' ++ B') (i :: F ++ B) /\ F' <> [] /\ incl F' (i :: F) /\ (k_check s = MInf -> In i F') /\
    k_best s' = k_best s /\ k_l2 s' = k_l2 s /\ k_u2 s' = k_u2 s /\ k_check2 s' = k_check2 s /\ k_ci2 s' = k_ci2 s /\ k_uns s' = k_uns s.
Proof.
  intros HL HP HN HM LU HU HC LF HLf Hi. unfold first_list.
  destruct (ext_ltb (k_check s) (Fin (uf i))) eqn:C.
  - (* onto the list *)
    assert (Case : (exists F1 f F2, F = F1 ++ f :: F2 /\ k_ci s = length F1 /\
                      (ms0 = O \/ (length F = ms0 /\ (forall f', In f' F -> uf f <= uf f') /\ uf f < uf i)))
                \/ (k_ci s = length F /\ (F = [] \/ (length F < ms0)%nat) /\ (F <> [] -> 0 < uf i) /\ (F = [] -> forall b, In b B -> ~ pr b))).
    { destruct HC as [(Ck & Ci & [(E & Nb)|(Z & L1)])|[(L & Ck & Ci)|[(L & f & Nf & Ck & Mf)|[(Z & L & Ck & Ci)|(A & _)]]]].
      - right. rewrite E, Ci. cbn [length]. split; [reflexivity|]. split; [left; reflexivity|]. split; [congruence|]. intros _. exact Nb.
      - left. destruct F as [|f [|f2 F]]; cbn in L1; try discriminate. exists [], f, []. rewrite Ci. repeat split. left. exact Z.
      - right. rewrite Ck in C. cbn in C. apply Qltb_lt in C. split; [exact Ci|]. split; [right; lia|]. split; [intros _; exact C|].
        intros ->. cbn in L. lia.
      - left. destruct (nth_split_at _ _ _ Nf) as (F1 & F2 & E & LE). exists F1, f, F2. rewrite Ck in C. cbn in C. apply Qltb_lt in C.
        split; [exact E|]. split; [congruence|]. right. split; [exact L|]. split; [exact Mf|exact C].
      - rewrite Ck in C. discriminate C.
      - lia. }
    destruct Case as [(F1 & f & F2 & EF & Eci & Cm)|(Eci & CF & Pos & Nb)].
    + subst F. rewrite HL, Eci.
      rewrite (shape_front (F1 ++ f :: F2) (S g) B e (length F1) f) by (rewrite nth_error_app2, Nat.sub_diag by lia; reflexivity).
      cbn [bind]. rewrite HP, to_end_ok. cbn [bind]. rewrite shape_replace. cbn [bind].
      assert (LT : (length F1 < length (F1 ++ f :: F2) + g)%nat) by (rewrite app_length; cbn [length]; lia).
      pose proof LT as LTb. apply Nat.ltb_lt in LTb. rewrite LTb. cbn [chk bind].
      destruct (upto_replace (k_use s) F1 f F2 i) as (U' & EU & LU' & HU'); [lia|exact HU|]. rewrite EU. cbn [bind].
      assert (LenE : length (F1 ++ i :: F2) = length (F1 ++ f :: F2)) by (rewrite !app_length; reflexivity).
      replace (Nat.min (k_ms s) (length (F1 ++ f :: F2) + g)) with (Nat.min ms0 (length (F1 ++ i :: F2) + g)) by lia.
      destruct (worst_ok pr (F1 ++ i :: F2) g (f :: B) U' (length F1)) as (ch & c & W & K).
      { exact HU'. } { rewrite app_length; cbn [length]; lia. } { lia. }
      { intros Z. rewrite Z in LF. rewrite app_length in LF. cbn [length Nat.max] in LF. lia. }
      rewrite W. cbn [bind]. exists (F1 ++ i :: F2), g, (f :: B). eexists. split; [reflexivity|]. ksimp.
      do 2 (split; [first [reflexivity|lia]|]). split; [cbn [length]; lia|]. split; [lia|]. split; [lia|]. split; [exact HU'|].
      split; [exact K|]. split; [lia|]. split.
      { split.
        - intros P0 NN b Ib Pb x Ix. destruct Cm as [Z|(LF' & Mf & Gt)]; [lia|].
          assert (Bd : uf b <= uf f).
          { destruct Ib as [<-|Ib]; [apply Qle_refl|]. destruct HLf as (H1 & _). apply (H1 P0 NN b Ib Pb). apply in_app_iff. right. left. reflexivity. }
          assert (Fd : uf f <= uf x).
          { apply in_app_iff in Ix. destruct Ix as [Ix|[<-|Ix]]; [|lra|]; apply Mf, in_app_iff; [left; exact Ix|right; right; exact Ix]. }
          lra.
        - intros LL. destruct Cm as [Z|(LF' & _)]; lia. }
      split.
      { rewrite <- !app_assoc. cbn [app].
        rewrite <- Permutation_middle. apply perm_skip.
        transitivity (F1 ++ (F2 ++ f :: B)); [reflexivity|]. apply Permutation_app_head. symmetry. apply Permutation_middle. }
      split; [destruct F1; discriminate|]. split.
      { intros x Ix. apply in_app_iff in Ix. destruct Ix as [Ix|[<-|Ix]]; [right; apply in_app_iff; left; exact Ix|left; reflexivity|right; apply in_app_iff; right; right; exact Ix]. }
      split; [intros _; apply in_app_iff; right; left; reflexivity|]. repeat (split; [reflexivity|]). reflexivity.
    + rewrite HL, Eci. rewrite shape_free by lia. cbn [bind]. rewrite shape_push. cbn [bind].
      assert (LT : (length F < k_put s)%nat) by lia. pose proof LT as LTb. apply Nat.ltb_lt in LTb. rewrite LTb. cbn [chk bind].
      destruct (upto_push (k_use s) F i) as (U' & EU & LU' & HU'); [lia|exact HU|]. rewrite EU. cbn [bind].
      assert (LenE : length (F ++ [i]) = S (length F)) by (rewrite app_length; cbn [length]; lia).
      replace (Nat.min (k_ms s) (k_put s)) with (Nat.min ms0 (length (F ++ [i]) + g)) by lia.
      assert (FL : (length (F ++ [i]) <= Nat.max 1 ms0)%nat).
      { destruct CF as [E|L]; [subst F; cbn [app length]; lia|lia]. }
      destruct (worst_ok pr (F ++ [i]) g B U' (length F)) as (ch & c & W & K); [exact HU'|lia|exact FL| |].
      { intros Z. destruct CF as [E|L]; [subst F; reflexivity|lia]. }
      rewrite W. cbn [bind]. exists (F ++ [i]), g, B. eexists. split; [reflexivity|]. ksimp.
      do 2 (split; [first [reflexivity|lia]|]). split; [cbn [length]; lia|]. split; [lia|]. split; [lia|]. split; [exact HU'|].
      split; [exact K|]. split; [exact FL|]. split.
      { split.
        - intros P0 NN b Ib Pb x Ix. apply in_app_iff in Ix. destruct Ix as [Ix|[<-|[]]].
          + destruct HLf as (H1 & _). exact (H1 P0 NN b Ib Pb x Ix).
          + destruct CF as [E|L]; [exfalso; exact (Nb E b Ib Pb)|]. destruct HLf as (_ & H2). specialize (H2 L b Ib Pb).
            specialize (NN i). lra.
        - intros L b Ib Pb. destruct CF as [E|L']; [exfalso; exact (Nb E b Ib Pb)|]. destruct HLf as (_ & H2). apply (H2 L' b Ib Pb). }
      split.
      { rewrite <- app_assoc. cbn [app]. symmetry. apply Permutation_middle. }
      split; [destruct F; discriminate|]. split.
      { intros x Ix. apply in_app_iff in Ix. destruct Ix as [Ix|[<-|[]]]; [right; exact Ix|left; reflexivity]. }
      split; [intros _; apply in_app_iff; right; left; reflexivity|]. repeat (split; [reflexivity|]). reflexivity.
  - (* to the end *)
    assert (Hne : F <> []).
    { intros ->. destruct HC as [(Ck & _)|[(L & _)|[(L & f & Nf & _)|[(Z & L & _)|(A & _)]]]]; try (cbn in L; lia); try discriminate.
      - rewrite Ck in C. discriminate C.
      - destruct (k_ci s); discriminate Nf. }
    rewrite HL, HP, to_end_ok. cbn [bind]. exists F, g, (i :: B). eexists. split; [reflexivity|]. ksimp.
    do 2 (split; [first [reflexivity|lia]|]). split; [cbn [length]; lia|]. split; [lia|]. split; [exact LU|]. split; [exact HU|].
    assert (CC : chk_ok pr F g (i :: B) (k_check s) (k_ci s) /\ left_ok pr F (i :: B)).
    { destruct HC as [(Ck & Ci & _)|[(L & Ck & Ci)|[(L & f & Nf & Ck & Mf)|[(Z & L & Ck & Ci)|(A & _)]]]].
      - rewrite Ck in C. discriminate C.
      - rewrite Ck in C. cbn in C. apply Qltb_ge in C. split; [right; left; auto|]. split.
        + intros P0 NN b [<-|Ib] Pb x Ix; [specialize (NN x); lra|]. destruct HLf as (H1 & _). exact (H1 P0 NN b Ib Pb x Ix).
        + intros _ b [<-|Ib] Pb; [exact C|]. destruct HLf as (_ & H2). apply (H2 ltac:(lia) b Ib Pb).
      - rewrite Ck in C. cbn in C. apply Qltb_ge in C. split; [right; right; left; split; [exact L|exists f; auto]|]. split.
        + intros P0 NN b [<-|Ib] Pb x Ix; [specialize (Mf x Ix); lra|]. destruct HLf as (H1 & _). exact (H1 P0 NN b Ib Pb x Ix).
        + intros LL. lia.
      - split; [right; right; right; left; auto|]. split; intros; lia.
      - discriminate A. }
    split; [tauto|]. split; [exact LF|]. split; [tauto|]. split; [symmetry; apply Permutation_middle|].
    split; [exact Hne|]. split; [intros x Ix; right; exact Ix|]. split; [intros Ck; rewrite Ck in C; discriminate C|]. repeat (split; [reflexivity|]). reflexivity.
Qed.
End Scan.

Definition snd_ok (mmf : nat) (os : list bobj) (P : list nat) (bp : Z) (l2 : list cell) (u2 : list Q) (ci2 : nat) (G : list nat) : Prop :=
  l2 = shape G (mmf - length G) [] 0 /\ (length G <= mmf)%nat /\ length u2 = mmf /\ upto u2 G (infeas os) /\ NoDup G /\
  (forall x, In x G -> In x P /\ prio os x = bp) /\ ((length G < mmf)%nat -> ci2 = length G) /\ ((0 < mmf)%nat -> (ci2 < mmf)%nat).
Lemma snd_init mmf os P bp : snd_ok mmf os P bp (repeat None mmf) (repeat 0 mmf) 0 [].
Proof.
  unfold snd_ok, shape. cbn [length map app]. rewrite Nat.sub_0_r, app_nil_r. do 2 (split; [first [reflexivity|lia]|]).
  split; [apply repeat_length|]. split; [intros j f H; destruct j; discriminate|]. split; [constructor|].
  split; [intros x []|]. split; [reflexivity|]. auto.
Qed.
Lemma second_list_ok mmf os P i v2 s G :
  snd_ok mmf os P (k_best s) (k_l2 s) (k_u2 s) (k_ci2 s) G -> ~ In i P -> prio os i = k_best s ->
  (v2 = Fin (infeas os i) \/ v2 = MInf) ->
  exists s' G', second_list mmf i v2 s = Ok s' /\ snd_ok mmf os (i :: P) (k_best s) (k_l2 s') (k_u2 s') (k_ci2 s') G' /\
    k_list s' = k_list s /\ k_use s' = k_use s /\ k_check s' = k_check s /\ k_ci s' = k_ci s /\ k_best s' = k_best s /\
    k_ms s' = k_ms s /\ k_put s' = k_put s /\ k_uns s' = k_uns s.
Proof.
  intros (E1 & E2 & E3 & E4 & E5 & E6 & E7 & E8) NI PI V.
  assert (Keep : snd_ok mmf os (i :: P) (k_best s) (k_l2 s) (k_u2 s) (k_ci2 s) G).
  { unfold snd_ok. do 5 (split; [assumption|]). split; [|split; assumption].
    intros x Ix. destruct (E6 x Ix) as (A & B). split; [right; exact A|exact B]. }
  destruct V as [->| ->]; cbn [second_list]; [|exists s, G; split; [reflexivity|]; split; [exact Keep|]; repeat split].
  destruct (Nat.ltb_spec 0 mmf) as [M|M]; cbn [andb]; [|exists s, G; split; [reflexivity|]; split; [exact Keep|]; repeat split].
  destruct (ext_ltb (k_check2 s) (Fin (infeas os i))); [|exists s, G; split; [reflexivity|]; split; [exact Keep|]; repeat split].
  assert (X : exists L2 U2 G', lset (k_ci2 s) (Some i) (k_l2 s) = Ok L2 /\ lset (k_ci2 s) (infeas os i) (k_u2 s) = Ok U2 /\
     L2 = shape G' (mmf - length G') [] 0 /\ (1 <= length G' <= mmf)%nat /\ length U2 = mmf /\ upto U2 G' (infeas os) /\ NoDup G' /\
     (forall x, In x G' -> In x (i :: P) /\ prio os x = k_best s)).
  { destruct (Nat.eq_dec (length G) mmf) as [Fl|Nf].
    - specialize (E8 M). destruct (nth_error G (k_ci2 s)) as [y|] eqn:Y; [|apply nth_error_None in Y; lia].
      destruct (nth_split_at _ _ _ Y) as (G1 & G2 & EG & LG).
      destruct (upto_replace (infeas os) (k_u2 s) G1 y G2 i) as (U2 & A & B & C); [lia|rewrite <- EG; exact E4|].
      exists (shape (G1 ++ i :: G2) (mmf - length (G1 ++ i :: G2)) [] 0), U2, (G1 ++ i :: G2).
      assert (LE : length (G1 ++ i :: G2) = length G) by (rewrite EG, !app_length; reflexivity).
      assert (NN : ~ In i G) by (intros I; apply NI; apply E6, I).
      rewrite <- LG. split.
      { rewrite E1, EG. rewrite shape_replace. rewrite <- EG, LE. reflexivity. }
      split; [exact A|]. split; [reflexivity|]. split; [lia|]. split; [lia|]. split; [exact C|]. split.
      { rewrite EG in E5, NN. apply NoDup_remove in E5. destruct E5 as (N1 & N2).
        apply (Permutation_NoDup (l := i :: G1 ++ G2)); [apply Permutation_middle|]. constructor; [|exact N1].
        intros I. apply NN. apply in_app_iff in I. apply in_app_iff. destruct I; [left|right; right]; assumption. }
      { intros x Ix. apply in_app_iff in Ix. destruct Ix as [Ix|[<-|Ix]].
        - destruct (E6 x) as (X1 & X2); [rewrite EG; apply in_app_iff; left; exact Ix|]. split; [right; exact X1|exact X2].
        - split; [left; reflexivity|exact PI].
        - destruct (E6 x) as (X1 & X2); [rewrite EG; apply in_app_iff; right; right; exact Ix|]. split; [right; exact X1|exact X2]. }
    - specialize (E7 ltac:(lia)). destruct (upto_push (infeas os) (k_u2 s) G i) as (U2 & A & B & C); [lia|exact E4|].
      exists (shape (G ++ [i]) (mmf - length (G ++ [i])) [] 0), U2, (G ++ [i]).
      assert (LE : length (G ++ [i]) = S (length G)) by (rewrite app_length; cbn [length]; lia).
      assert (NN : ~ In i G) by (intros I; apply NI; apply E6, I).
      split.
      { rewrite E1, E7. destruct (mmf - length G)%nat as [|g] eqn:Gg; [lia|]. rewrite shape_push.
        replace (mmf - length (G ++ [i]))%nat with g by lia. reflexivity. }
      split; [rewrite E7; exact A|]. split; [reflexivity|]. split; [lia|]. split; [lia|]. split; [exact C|]. split.
      { apply (Permutation_NoDup (l := i :: G)); [apply Permutation_cons_append|]. constructor; assumption. }
      { intros x Ix. apply in_app_iff in Ix. destruct Ix as [Ix|[<-|[]]].
        - destruct (E6 x Ix) as (X1 & X2). split; [right; exact X1|exact X2].
        - split; [left; reflexivity|exact PI]. } }
  destruct X as (L2 & U2 & G' & A & B & EL & LG & LU & UU & ND & Mem). rewrite A. cbn [bind]. rewrite B. cbn [bind].
  assert (W : exists ch c, worst mmf 0 L2 U2 PInf (k_ci2 s) = Ok (ch, c) /\ ((length G' < mmf)%nat -> c = length G') /\ (c < mmf)%nat).
  { rewrite EL. destruct (Nat.eq_dec (length G') mmf) as [Fl|Nf].
    - destruct (worst_full G' (mmf - length G') [] 0 (infeas os) U2 UU (length G') 0 PInf (k_ci2 s) eq_refl) as (ch & c & W & D & _).
      exists ch, c. split; [rewrite Fl in W at 1; exact W|]. split; [lia|]. destruct D as [(_ & ->)|(f & N & _)]; [apply E8, M|].
      assert (c < length G')%nat by (apply nth_error_Some; congruence). lia.
    - exists (Fin 0), (length G'). split; [|split; [reflexivity|lia]].
      eapply worst_free with (k := length G'); [exact UU|lia|lia|lia]. }
  destruct W as (ch & c & W & C1 & C2). rewrite W. cbn [bind].
  eexists. exists G'. split; [reflexivity|]. ksimp. split; [|repeat split].
  unfold snd_ok. split; [exact EL|]. split; [lia|]. split; [exact LU|]. split; [exact UU|]. split; [exact ND|]. split; [exact Mem|]. split; [exact C1|auto].
Qed.

Section ScanAll.
Variables (os : list bobj) (q : sopts) (mmf : nat) (um dm : Q) (pc : pcosts) (ms0 e : nat).
Let n := length os.
Hypothesis Hpc : exists m, pc_ok m pc /\ (n <= m)%nat.
Hypothesis Hms : (ms0 <= n)%nat.
Hypothesis Hint : Forall (fun o => (o_prio o <= 2147483647)%Z) os.
Definition ufn (i : nat) : Q :=
  match nth_error os i with
  | Some o => match usefulness (s_crit q) (s_W q) um dm (s_trust q) pc i o with Ok (u, _) => u | _ => 0 end
  | None => 0
  end.
Lemma useful_ok i o : nth_error os i = Some o ->
  exists v2, usefulness (s_crit q) (s_W q) um dm (s_trust q) pc i o = Ok (ufn i, v2) /\ (v2 = Fin (infeas os i) \/ v2 = MInf).
Proof.
  intros N. assert (L : (i < n)%nat) by (apply nth_error_Some; congruence).
  destruct Hpc as (m & (L1 & L2 & L3 & L4) & Lm).
  unfold ufn, infeas. rewrite N. unfold usefulness.
  destruct (rd_lt i (p_un pc)) as (nu & -> & _); [lia|]. destruct (rd_lt i (p_dn pc)) as (nd & -> & _); [lia|]. cbn [bind].
  destruct (ps_crit (s_crit q)).
  - destruct (rd_lt i (p_ut pc)) as (su & -> & _); [lia|]. destruct (rd_lt i (p_dt pc)) as (sd & -> & _); [lia|]. cbn [bind].
    eexists. split; [reflexivity|]. destruct (_ || _)%bool; [left|right]; reflexivity.
  - eexists. split; [reflexivity|]. left. reflexivity.
Qed.
Record inv (i : nat) (P F : list nat) (g : nat) (B G : list nat) (s : lst) : Prop := {
  i_list : k_list s = shape F g B e;
  i_put : k_put s = (length F + g)%nat;
  i_n : (length F + g + length B = n)%nat;
  i_ms : k_ms s = Nat.min ms0 (k_put s);
  i_lu : length (k_use s) = (n + e)%nat;
  i_use : upto (k_use s) F ufn;
  i_chk : chk_ok ufn ms0 (fun x => prio os x = k_best s) F g B (k_check s) (k_ci s);
  i_lf : (length F <= Nat.max 1 ms0)%nat;
  i_left : left_ok ufn ms0 (fun x => prio os x = k_best s) F B;
  i_perm : Permutation (F ++ B) P;
  i_ne : P <> [] -> F <> [];
  i_init : P = [] -> k_best s = INT_MAX;
  i_lt : Forall (fun x => (x < i)%nat) P;
  i_nd : NoDup P;
  i_uns : k_uns s = length P;
  i_best : Forall (fun x => prio os x = k_best s) F;
  i_le : Forall (fun x => (k_best s <= prio os x)%Z) P;
  i_int : (k_best s <= INT_MAX)%Z;
  i_snd : snd_ok mmf os P (k_best s) (k_l2 s) (k_u2 s) (k_ci2 s) G }.

(** The state in which the object is put on the list, after a possible flush. *)
Lemma better_ok i P F g B G s o : inv i P F g B G s -> nth_error os i = Some o -> (0 < g)%nat ->
  exists s1 F1 g1 B1 G1, better_prio mmf (o_prio o) (set_uns s) = Ok s1 /\
    k_best s1 = Z.min (o_prio o) (k_best s) /\ (0 < g1)%nat /\
    k_list s1 = shape F1 g1 B1 e /\ k_put s1 = (length F1 + g1)%nat /\ (length F1 + g1 + length B1 = n)%nat /\
    k_ms s1 = Nat.min ms0 (k_put s1) /\ length (k_use s1) = (n + e)%nat /\ upto (k_use s1) F1 ufn /\
    chk_ok ufn ms0 (fun x => prio os x = k_best s1) F1 g1 B1 (k_check s1) (k_ci s1) /\ (length F1 <= Nat.max 1 ms0)%nat /\
    left_ok ufn ms0 (fun x => prio os x = k_best s1) F1 B1 /\ Permutation (F1 ++ B1) P /\ k_uns s1 = S (length P) /\
    Forall (fun x => (k_best s1 <= prio os x)%Z) P /\
    snd_ok mmf os P (k_best s1) (k_l2 s1) (k_u2 s1) (k_ci2 s1) G1 /\
    ((o_prio o < k_best s)%Z \/ (s1 = set_uns s /\ F1 = F /\ g1 = g /\ B1 = B)) /\
    ((o_prio o < k_best s)%Z -> k_check s1 = MInf /\ (F1 = [] \/ (ms0 = O /\ length F1 = 1%nat))).
Proof.
  intros I N Gp. destruct I. unfold better_prio.
  change (k_best (set_uns s)) with (k_best s). destruct (Z.ltb_spec (o_prio o) (k_best s)) as [H|H].
  - cbn [set_uns k_list k_use k_put k_ms k_uns].
    assert (Low : Forall (fun x => (o_prio o <= prio os x)%Z) P).
    { eapply Forall_impl; [|exact i_le0]. intros x Hx. cbn beta in Hx. lia. }
    assert (NB : forall b, In b B -> prio os b <> o_prio o).
    { intros b Ib E. rewrite Forall_forall in i_le0. specialize (i_le0 b). rewrite <- i_perm0 in i_le0.
      specialize (i_le0 ltac:(apply in_app_iff; right; exact Ib)). cbn beta in i_le0. lia. }
    assert (NF : forall b, In b F -> prio os b <> o_prio o).
    { intros b Ib E. rewrite Forall_forall in i_best0. specialize (i_best0 b Ib). cbn beta in i_best0. lia. }
    destruct (Nat.eq_dec ms0 0) as [Z0|NZ].
    + rewrite i_ms0, Z0. cbn [Nat.min flush bind]. eexists. exists F, g, B, []. split; [reflexivity|]. ksimp.
      split; [lia|]. split; [exact Gp|]. do 3 (split; [assumption|]). split; [reflexivity|]. split; [assumption|]. split; [assumption|].
      split.
      { left. split; [reflexivity|]. split; [reflexivity|]. destruct F as [|f F]; [left; split; [reflexivity|exact NB]|].
        right. split; [first [exact Z0|reflexivity]|]. rewrite Z0 in i_lf0. cbn [length Nat.max] in *. lia. }
      split; [rewrite Z0 in i_lf0; exact i_lf0|]. split; [split; intros; lia|]. split; [assumption|]. split; [congruence|].
      split; [exact Low|]. split; [apply snd_init|]. split; [left; exact H|]. intros _. split; [reflexivity|].
      destruct F as [|f F]; [left; reflexivity|]. right. split; [first [exact Z0|reflexivity]|]. rewrite Z0 in i_lf0. cbn [length Nat.max] in *. lia.
    + rewrite i_ms0. assert (LFm : (length F <= Nat.min ms0 (k_put s))%nat) by lia.
      assert (Sp : exists d, Nat.min ms0 (k_put s) = (length F + d)%nat /\ (d <= g)%nat).
      { exists (Nat.min ms0 (k_put s) - length F)%nat. lia. }
      destruct Sp as (d & Ed & Ld). rewrite i_list0, Ed. rewrite flush_free by exact Ld. rewrite i_put0.
      destruct (flush_front e F g B (k_use s)) as (U' & EF & LU'); [lia|]. rewrite EF. cbn [bind].
      eexists. exists [], g, (F ++ B), []. split; [reflexivity|]. ksimp. cbn [length].
      split; [lia|]. split; [lia|]. split; [reflexivity|]. split; [reflexivity|]. split; [rewrite app_length; lia|].
      split; [lia|]. split; [lia|]. split; [intros j f X; destruct j; discriminate|]. split.
      { left. split; [reflexivity|]. split; [reflexivity|]. left. split; [reflexivity|]. intros b Ib E.
        apply in_app_iff in Ib. destruct Ib as [Ib|Ib]; [exact (NF b Ib E)|exact (NB b Ib E)]. }
      split; [lia|]. split.
      { split; [intros _ _ b _ _ f []|]. intros _ b Ib E. exfalso. apply in_app_iff in Ib. destruct Ib as [Ib|Ib]; [exact (NF b Ib E)|exact (NB b Ib E)]. }
      split; [exact i_perm0|]. split; [congruence|]. split; [exact Low|]. split; [apply snd_init|]. split; [left; exact H|]. intros _. split; [reflexivity|]. left. reflexivity.
  - exists (set_uns s), F, g, B, G. split; [reflexivity|]. cbn [set_uns k_list k_use k_check k_ci k_best k_ms k_put k_l2 k_u2 k_check2 k_ci2 k_uns k_nnt].
    split; [lia|]. split; [exact Gp|]. do 8 (split; [assumption|]). split; [assumption|]. split; [assumption|]. split; [congruence|].
    split; [assumption|]. split; [assumption|]. split; [right; repeat split|]. lia.
Qed.
Lemma scan_one_ok i P F g B G s o : inv i P F g B G s -> nth_error os i = Some o ->
  (0 < o_inf o /\ huge <= o_inf o /\ exists s', scan_one q mmf um dm pc i o s = Ok (false, s')) \/
  (o_inf o < huge /\ exists s' F' g' B' G', scan_one q mmf um dm pc i o s = Ok (true, s') /\
     inv (S i) (if Qltb 0 (o_inf o) then P ++ [i] else P) F' g' B' G' s').
Proof.
  intros I N. assert (Li : (i < n)%nat) by (apply nth_error_Some; congruence).
  unfold scan_one. destruct (Qltb 0 (o_inf o)) eqn:Pz; [apply Qltb_lt in Pz|apply Qltb_ge in Pz].
  2:{ right. split; [apply (Qle_lt_trans _ 0); [exact Pz|reflexivity]|]. exists s, F, g, B, G. split; [reflexivity|].
      destruct I; constructor; try assumption. eapply Forall_impl; [|exact i_lt0]. intros x Hx. cbn beta in Hx. lia. }
  destruct (Qle_bool huge (o_inf o)) eqn:Hg; [apply Qleb_le in Hg|apply Qleb_gt in Hg].
  { left. split; [exact Pz|]. split; [exact Hg|]. eexists. reflexivity. }
  right. split; [exact Hg|].
  assert (PI : prio os i = o_prio o) by (unfold prio; rewrite N; reflexivity).
  assert (OI : (o_prio o <= INT_MAX)%Z).
  { rewrite Forall_forall in Hint. apply (Hint o). eapply nth_error_In, N. }
  assert (Li' : (length P <= i)%nat).
  { destruct I. rewrite <- (seq_length i 0). apply NoDup_incl_length; [assumption|]. intros x Ix.
    rewrite Forall_forall in i_lt0. specialize (i_lt0 x Ix). cbn beta in i_lt0. apply in_seq. lia. }
  assert (NI : ~ In i P).
  { destruct I. intros Ix. rewrite Forall_forall in i_lt0. specialize (i_lt0 i Ix). cbn beta in i_lt0. lia. }
  assert (Gp : (0 < g)%nat).
  { destruct I. apply Permutation_length in i_perm0. rewrite app_length in i_perm0. lia. }
  destruct (better_ok i P F g B G s o I N Gp) as (s1 & F1 & g1 & B1 & G1 & E1 & Eb & Gp1 & A1 & A2 & A3 & A4 & A5 & A6 & A7 & A8 & A9 & A10 & A11 & A12 & A13 & A14 & A15).
  rewrite E1. cbn [bind]. destruct I. destruct (Z.eqb_spec (o_prio o) (k_best s1)) as [EP|NP].
  - destruct (useful_ok i o N) as (v2 & EU & V2). rewrite EU. cbn [bind].
    destruct g1 as [|g1]; [lia|].
    destruct (first_list_ok ufn ms0 e n (fun x => prio os x = k_best s1) i s1 F1 g1 B1 A1 A2 A3 A4 A5 A6 A7 A8 A9) as
      (F2 & g2 & B2 & s2 & E2 & C1 & C2 & C3 & C4 & C5 & C6 & C7 & C8 & C9 & C10 & C11 & C12 & C13 & D1 & D2 & D3 & D4 & D5 & D6); [lia|].
    rewrite E2. cbn [bind].
    rewrite <- D1, <- D2, <- D3, <- D5 in A13.
    destruct (second_list_ok mmf os P i v2 s2 G1 A13 NI) as (s3 & G3 & E3 & S3 & K1 & K2 & K3 & K4 & K5 & K6 & K7 & K8); [lia|exact V2|].
    rewrite E3. cbn [bind]. exists s3, F2, g2, B2, G3. split; [reflexivity|].
    assert (Bst : k_best s3 = k_best s1) by congruence.
    assert (PP : Permutation (F2 ++ B2) (P ++ [i])).
    { etransitivity; [exact C10|]. etransitivity; [apply perm_skip, A10|]. apply Permutation_cons_append. }
    constructor; rewrite ?K1, ?K2, ?K3, ?K4, ?Bst, ?K6, ?K7, ?K8; try assumption.
    + intros _. exact C11.
    + intros X. destruct P; discriminate X.
    + apply Forall_app. split; [|constructor; [lia|constructor]]. eapply Forall_impl; [|exact i_lt0]. intros x Hx. cbn beta in Hx. lia.
    + apply (Permutation_NoDup (l := i :: P)); [apply Permutation_cons_append|]. constructor; assumption.
    + rewrite app_length. cbn [length]. lia.
    + apply Forall_forall. intros x Ix. specialize (C12 x Ix). destruct C12 as [<-|C12]; [lia|].
      destruct A14 as [Lt|(Es & EF & _)].
      * destruct (A15 Lt) as (Ck & [E0|(Z0 & L1)]).
        -- rewrite E0 in C12. destruct C12.
        -- exfalso. assert (L0 : (length F2 <= 1)%nat) by (rewrite Z0 in C8; cbn [Nat.max] in C8; lia).
           specialize (C13 Ck). destruct F2 as [|y [|? ?]]; cbn [length] in L0; [exact (C11 eq_refl)| |lia].
           destruct C13 as [C13|[]]. destruct Ix as [Ix|[]]. assert (X : x = i) by congruence. rewrite X in *. apply NI.
           rewrite <- A10. apply in_app_iff. left. exact C12.
      * rewrite EF in C12. rewrite Forall_forall in i_best0. specialize (i_best0 x C12). cbn beta in i_best0. rewrite Es. exact i_best0.
    + apply Forall_app. split; [exact A12|]. constructor; [lia|constructor].
    + lia.
    + rewrite D1 in S3. unfold snd_ok in *. destruct S3 as (T1 & T2 & T3 & T4 & T5 & T6 & T7). do 5 (split; [assumption|]). split; [|exact T7].
      intros x Ix. destruct (T6 x Ix) as (Y1 & Y2). split; [|exact Y2]. apply in_app_iff. destruct Y1 as [<-|Y1]; [right; left; reflexivity|left; exact Y1].
  - destruct A14 as [Lt|(Es & EF & Eg & EB)]; [lia|]. subst F1 g1 B1. rewrite A1, A2.
    destruct g as [|g]; [lia|]. rewrite to_end_ok. cbn [bind]. eexists. exists F, g, (i :: B), G1. split; [reflexivity|].
    constructor; ksimp; try assumption; try (rewrite Es; assumption).
    + reflexivity.
    + reflexivity.
    + cbn [length]. lia.
    + lia.
    + rewrite Es in A7 |- *. cbn [set_uns k_check k_ci k_best] in A7 |- *.
      destruct A7 as [(Ck & Ci & D)|[R|[R|[R|(R & _)]]]].
      * destruct D as [(F0 & Nb)|Z0].
        -- subst F. assert (P0 : P = []) by (destruct P; [reflexivity|exfalso; apply (i_ne0 ltac:(discriminate)); reflexivity]).
           exfalso. specialize (i_init0 P0). apply NP. rewrite Eb. rewrite i_init0. lia.
        -- left. auto.
      * right; left. exact R.
      * right; right; left. exact R.
      * right; right; right; left. exact R.
      * discriminate R.
    + rewrite Es in A9 |- *. cbn [set_uns k_best] in A9 |- *. destruct A9 as (H1 & H2). split.
      * intros P0 NN b [<-|Ib] Pb; [exfalso; rewrite Es in NP; cbn [set_uns k_best] in NP; congruence|exact (H1 P0 NN b Ib Pb)].
      * intros P0 b [<-|Ib] Pb; [exfalso; rewrite Es in NP; cbn [set_uns k_best] in NP; congruence|exact (H2 P0 b Ib Pb)].
    + etransitivity; [symmetry; apply Permutation_middle|]. etransitivity; [apply perm_skip, i_perm0|]. apply Permutation_cons_append.
    + intros _ ->. assert (P0 : P = []) by (destruct P; [reflexivity|exfalso; apply (i_ne0 ltac:(discriminate)); reflexivity]).
      specialize (i_init0 P0). apply NP. rewrite Eb. rewrite i_init0. lia.
    + intros X. destruct P; discriminate X.
    + apply Forall_app. split; [|constructor; [lia|constructor]]. eapply Forall_impl; [|exact i_lt0]. intros x Hx. cbn beta in Hx. lia.
    + apply (Permutation_NoDup (l := i :: P)); [apply Permutation_cons_append|]. constructor; assumption.
    + rewrite app_length. cbn [length]. lia.
    + apply Forall_app. split; [exact A12|]. constructor; [lia|constructor].
    + unfold snd_ok in *. destruct A13 as (T1 & T2 & T3 & T4 & T5 & T6 & T7). do 5 (split; [assumption|]). split; [|exact T7].
      intros x Ix. destruct (T6 x Ix) as (Y1 & Y2). split; [|exact Y2]. apply in_app_iff. left. exact Y1.
Qed.
Lemma nth_app_at {A} (p : list A) a r : nth_error (p ++ a :: r) (length p) = Some a.
Proof. rewrite nth_error_app2, Nat.sub_diag by lia. reflexivity. Qed.
Lemma scan_ok : forall rest pre P F g B G s, os = pre ++ rest -> inv (length pre) P F g B G s ->
  ((exists o, In o rest /\ huge <= o_inf o) /\ exists s', scan q mmf um dm pc (length pre) rest s = Ok (false, s')) \/
  ((forall o, In o rest -> o_inf o < huge) /\ exists s' F' g' B' G', scan q mmf um dm pc (length pre) rest s = Ok (true, s') /\
     inv n (P ++ unsat_from (length pre) rest) F' g' B' G' s').
Proof.
  induction rest as [|o rest IH]; intros pre P F g B G s E I.
  - right. split; [intros o []|]. exists s, F, g, B, G. split; [reflexivity|]. cbn [unsat_from]. rewrite app_nil_r in *.
    replace n with (length pre); [exact I|]. unfold n. rewrite E. reflexivity.
  - cbn [scan]. assert (N : nth_error os (length pre) = Some o) by (rewrite E; apply nth_app_at).
    destruct (scan_one_ok (length pre) P F g B G s o I N) as [(A1 & A2 & s' & A3)|(A1 & s' & F' & g' & B' & G' & A2 & A3)].
    + left. split; [exists o; split; [left; reflexivity|exact A2]|]. rewrite A3. cbn [bind]. eauto.
    + rewrite A2. cbn [bind].
      assert (E' : os = (pre ++ [o]) ++ rest) by (rewrite <- app_assoc; exact E).
      assert (L' : length (pre ++ [o]) = S (length pre)) by (rewrite app_length; cbn [length]; lia).
      rewrite <- L' in A3 |- *.
      destruct (IH (pre ++ [o]) _ F' g' B' G' s' E' A3) as [((o' & X1 & X2) & X3)|(X1 & s2 & F2 & g2 & B2 & G2 & X2 & X3)].
      * left. split; [exists o'; split; [right; exact X1|exact X2]|exact X3].
      * right. split; [intros o' [<-|Ho]; [exact A1|exact (X1 o' Ho)]|]. exists s2, F2, g2, B2, G2. split; [exact X2|].
        cbn [unsat_from]. rewrite L' in X3. destruct (Qltb 0 (o_inf o)); [|exact X3]. rewrite <- app_assoc in X3. exact X3.
Qed.
Lemma inv_init : n <> O -> inv 0 [] [] n [] [] {| k_list := repeat None n ++ repeat None e; k_use := repeat 0 n ++ repeat 0 e;
   k_check := MInf; k_ci := 0; k_best := INT_MAX; k_ms := ms0; k_put := n;
   k_l2 := repeat None mmf; k_u2 := repeat 0 mmf; k_check2 := MInf; k_ci2 := 0; k_uns := 0; k_nnt := 0 |}.
Proof.
  intros N0. constructor; ksimp; cbn [length]; try reflexivity; try lia; try constructor.
  - rewrite app_length, !repeat_length. reflexivity.
  - intros j f X. destruct j; discriminate.
  - split; [reflexivity|]. split; [reflexivity|]. left. split; [reflexivity|intros b []].
  - intros _ _ b [].
  - intros _ b [].
  - intros X. congruence.
  - unfold shape. cbn [map app length]. rewrite Nat.sub_0_r, app_nil_r. reflexivity.
  - pose proof (snd_init mmf os [] INT_MAX) as X. unfold snd_ok in X. destruct X as (_ & X). exact X.
Qed.
End ScanAll.
