(** Lemmas for the heuristics that solve a MILP: the matrix of MilpRounding. *)
From Verif Require Import Base Arr Nlp Oad_Model Nls_Model Nls_Spec Nls_Proofs Div_Model Div_Spec Div_Proofs Div_Proofs2 Str_Proofs Mil_Model Mil_Spec Mil_Proofs.
#[local] Open Scope Q_scope.

(** ** Numbering of rows *)
Lemma rank_S b lin i : rank (b :: lin) (S i) = ((if (b : bool) then 1 else 0) + rank lin i)%nat.
Proof. unfold rank. cbn [firstn count_occ]. destruct b; cbn; lia. Qed.
Lemma lin_index_nth lin : forall k i, nth i (lin_index k lin) None = if nth i lin false then Some (k + rank lin i)%nat else None.
Proof.
  induction lin as [|b lin IH]; intros k i; [destruct i; reflexivity|].
  cbn [lin_index]. destruct i as [|i].
  - destruct b; cbn [nth]; [|reflexivity]. unfold rank. cbn [firstn count_occ]. f_equal. lia.
  - rewrite rank_S. destruct b; cbn [nth]; rewrite IH; destruct (nth i lin false); try reflexivity; f_equal; lia.
Qed.
Lemma lin_index_length lin : forall k, length (lin_index k lin) = length lin.
Proof. induction lin as [|b lin IH]; intros k; [reflexivity|]. cbn [lin_index]. destruct b; cbn [length]; rewrite IH; reflexivity. Qed.
Lemma rank_lt lin i : nth i lin false = true -> (rank lin i < count_occ Bool.bool_dec lin true)%nat.
Proof.
  revert i; induction lin as [|b lin IH]; intros i H; [destruct i; discriminate|].
  destruct i as [|i].
  - cbn [nth] in H. subst b. unfold rank. cbn. lia.
  - cbn [nth] in H. rewrite rank_S. specialize (IH _ H). destruct b; cbn [count_occ]; destruct Bool.bool_dec; try lia; discriminate.
Qed.
Lemma rank_inj lin : forall i j, nth i lin false = true -> nth j lin false = true -> rank lin i = rank lin j -> i = j.
Proof.
  induction lin as [|b lin IH]; intros i j Hi Hj E; [destruct i; discriminate|].
  destruct i as [|i], j as [|j]; [reflexivity| | |].
  - cbn [nth] in Hi. subst b. rewrite rank_S in E. unfold rank at 1 in E. cbn in E. lia.
  - cbn [nth] in Hj. subst b. rewrite rank_S in E. unfold rank at 2 in E. cbn in E. lia.
  - rewrite !rank_S in E. f_equal. apply IH; [exact Hi|exact Hj|lia].
Qed.

(** ** Sorting *)
Lemma strict_weak_matcomp st : strict_weak (matcomp st).
Proof.
  split; unfold matcomp.
  - intros a. rewrite !Nat.ltb_irrefl, andb_false_r. reflexivity.
  - intros a b c H1 H2. apply orb_true_iff in H1, H2. apply orb_true_iff.
    rewrite !andb_true_iff, !Nat.ltb_lt, !Nat.eqb_eq in *. lia.
  - intros a b c H1 H2. apply orb_false_iff in H1, H2. apply orb_false_iff.
    rewrite !andb_false_iff, !Nat.ltb_ge, !Nat.eqb_neq in *. lia.
Qed.
Lemma matcomp_before st i j : matcomp st j i = false -> before (nth i st (0, 0)%nat) (nth j st (0, 0)%nat).
Proof. unfold matcomp, before. rewrite orb_false_iff, andb_false_iff, !Nat.ltb_ge, Nat.eqb_neq. lia. Qed.
Lemma ordered_before st perm : ordered (matcomp st) perm -> ForallOrdPairs before (map (fun s => nth s st (0, 0)%nat) perm).
Proof.
  induction 1 as [|a l F _ IH]; [constructor|]. cbn [map]. constructor; [|exact IH].
  apply Forall_forall. intros rc H. apply in_map_iff in H. destruct H as (s & <- & Hs). apply matcomp_before. rewrite Forall_forall in F. exact (F _ Hs).
Qed.
Lemma sorted_unique : forall l1 l2, ForallOrdPairs before l1 -> ForallOrdPairs before l2 -> Permutation l1 l2 -> l1 = l2.
Proof.
  induction l1 as [|a l1 IH]; intros [|b l2] O1 O2 P.
  - reflexivity.
  - apply Permutation_nil_cons in P. destruct P.
  - symmetry in P. apply Permutation_nil_cons in P. destruct P.
  - inversion O1 as [|a' l1' F1 O1']. inversion O2 as [|b' l2' F2 O2']. subst.
    assert (E : a = b).
    { assert (Ia : In a (b :: l2)) by (eapply Permutation_in; [exact P|left; reflexivity]).
      assert (Ib : In b (a :: l1)) by (eapply Permutation_in; [exact (Permutation_sym P)|left; reflexivity]).
      destruct Ia as [->|Ia]; [reflexivity|]. destruct Ib as [<-|Ib]; [reflexivity|].
      rewrite Forall_forall in F1, F2. specialize (F1 _ Ib). specialize (F2 _ Ia). unfold before in *. destruct a as (a1, a2), b as (b1, b2). cbn [fst snd] in *. f_equal; lia. }
    subst b. f_equal. apply IH; [assumption|assumption|]. apply Permutation_cons_inv in P. exact P.
Qed.
Lemma map_nth_self {A} (l : list A) d : map (fun s => nth s l d) (seq 0 (length l)) = l.
Proof.
  induction l as [|a l IH]; [reflexivity|]. cbn [length seq map nth]. f_equal. rewrite <- seq_shift, map_map. exact IH.
Qed.
Lemma ents_sorted st off cidx vals : forall perm i, ForallOrdPairs before (map (fun s => nth s st (0, 0)%nat) perm) -> incr tcol (ents st off cidx vals i perm).
Proof.
  induction perm as [|s perm IH]; intros i O; [exact Logic.I|]. cbn [ents incr]. inversion O as [|a l F O1]. subst. split; [|apply IH, O1].
  assert (G : forall p k, Forall (before (nth s st (0, 0)%nat)) (map (fun s => nth s st (0, 0)%nat) p) ->
    Forall (fun u => (tcol ((snd (nth s st (0, 0)%nat) - off)%nat, nth (fst (nth s st (0, 0)%nat) - off) cidx None, nth i vals 0%Q) <= tcol u)%nat) (ents st off cidx vals k p)).
  { induction p as [|q p IHp]; intros k FF; [constructor|]. cbn [ents]. apply Forall_cons_iff in FF. destruct FF as (B & FF). constructor; [|apply IHp, FF].
    unfold tcol. cbn [fst]. unfold before in B. lia. }
  apply G, F.
Qed.
(** Coefficients as sums over the entries. *)
Lemma coef_sum j k (l : list ent) :
  coef (map (fun t => (krow t, snd t)) (filter (isc j) (kept l))) k ==
  qsum (map (fun t => if (Nat.eqb (tcol t) j && match trow t with Some r => Nat.eqb r k | None => false end)%bool then snd t else 0) l).
Proof.
  unfold coef, kept. induction l as [|t l IH]; [reflexivity|]. cbn [filter map qsum]. unfold keep at 1. destruct (trow t) as [r|] eqn:TR.
  - cbn [filter]. destruct (Nat.eqb (tcol t) j); cbn [andb].
    + cbn [map filter]. unfold in_row at 1. cbn [fst]. unfold krow at 1. rewrite TR. destruct (Nat.eqb r k).
      * cbn [map qsum snd]. rewrite IH. reflexivity.
      * rewrite IH. ring.
    + rewrite IH. ring.
  - rewrite andb_false_r, IH. ring.
Qed.
Lemma ents_map st off cidx vals : forall perm i, (i + length perm <= length vals)%nat ->
  ents st off cidx vals i perm = map (fun p => ((snd (fst p) - off)%nat, nth (fst (fst p) - off) cidx None, snd p)) (combine (map (fun s => nth s st (0, 0)%nat) perm) (skipn i vals)).
Proof.
  induction perm as [|s perm IH]; intros i H; [reflexivity|]. cbn [length] in H. cbn [ents map].
  assert (E : skipn i vals = nth i vals 0 :: skipn (S i) vals).
  { clear IH. revert i H. induction vals as [|v vals IHv]; intros i H; [cbn [length] in H; lia|]. destruct i as [|i]; [reflexivity|]. cbn [skipn nth]. apply IHv. cbn [length] in H. lia. }
  rewrite E. cbn [combine map fst snd]. f_equal. apply IH. lia.
Qed.
Lemma matrix_ok : C42_matrix (fun P => by_columns (p_jst P)).
Proof.
  intros sort P x SO OK Lx BC. unfold mr_matrix.
  destruct (SO (matcomp (p_jst P)) (seq 0 (length (p_jst P))) (strict_weak_matcomp _)) as (PM & OR).
  set (perm := sort _ _) in *. pose proof (perm_range _ _ PM) as PR.
  assert (LP : length perm = length (p_jst P)) by (rewrite <- (Permutation_length PM), seq_length; reflexivity).
  assert (LJ : length (p_jv P x) = length (p_jst P)) by exact (ok_jv P OK x Lx).
  pose proof (ordered_before _ _ OR) as OB.
  assert (KEYS : map (fun s => nth s (p_jst P) (0, 0)%nat) perm = p_jst P).
  { apply sorted_unique; [exact OB|exact BC|]. eapply Permutation_trans; [apply Permutation_map, Permutation_sym, PM|]. rewrite map_nth_self. reflexivity. }
  set (T := ents (p_jst P) (p_off P) (lin_index 0 (p_lin P)) (p_jv P x) 0 perm).
  assert (IT : incr tcol T) by (apply ents_sorted, OB).
  destruct (mr_loop_ok (p_n P) (p_m P) (p_jst P) (p_off P) (lin_index 0 (p_lin P)) (p_jv P x)) with (perm := perm) (i := 0%nat) (pre := @nil ent) (ini := @None nat)
    (A := mkCmat (repeat 0%nat (p_n P)) (repeat 0%nat (p_n P)) [] []) as (A & ini & E & PK & EV).
  - rewrite lin_index_length. apply (ok_lin P OK).
  - exact (ok_jst P OK).
  - exact PR.
  - cbn [Nat.add]. rewrite LP, LJ. reflexivity.
  - apply packed_nil.
  - reflexivity.
  - exact IT.
  - cbn [app] in PK, EV. fold T in PK, EV. exists A. split; [exact E|].
    assert (TM : T = map (fun p => ((snd (fst p) - p_off P)%nat, nth (fst (fst p) - p_off P) (lin_index 0 (p_lin P)) None, snd p)) (combine (p_jst P) (p_jv P x))).
    { unfold T. rewrite ents_map by (rewrite LP, LJ; reflexivity). rewrite KEYS. reflexivity. }
    split.
    + intros i j Li Lj. rewrite (packed_column _ _ _ _ _ PK EV IT Lj), coef_sum, TM, map_map. unfold dense. apply qsum_ext.
      intros ((r, c), v) Hin. apply in_combine_l in Hin. pose proof (ok_jst P OK) as FJ. rewrite Forall_forall in FJ. specialize (FJ _ Hin). cbn [fst snd] in *.
      unfold tcol, trow. cbn [fst snd]. rewrite lin_index_nth. cbn [Nat.add].
      assert (B1 : Nat.eqb (c - p_off P) j = Nat.eqb c (j + p_off P)).
      { destruct (Nat.eqb_spec (c - p_off P) j), (Nat.eqb_spec c (j + p_off P)); try reflexivity; lia. }
      assert (B2 : match (if nth (r - p_off P) (p_lin P) false then Some (rank (p_lin P) (r - p_off P)) else None) with Some r0 => Nat.eqb r0 (rank (p_lin P) i) | None => false end = Nat.eqb r (i + p_off P)).
      { destruct (nth (r - p_off P) (p_lin P) false) eqn:RL.
        - destruct (Nat.eqb_spec (rank (p_lin P) (r - p_off P)) (rank (p_lin P) i)) as [X|X]; destruct (Nat.eqb_spec r (i + p_off P)) as [Y|Y]; try reflexivity.
          + apply rank_inj in X; [lia|assumption|assumption].
          + exfalso. apply X. f_equal. lia.
        - destruct (Nat.eqb_spec r (i + p_off P)) as [Y|Y]; [|reflexivity]. exfalso. subst r. rewrite Nat.add_sub in RL. congruence. }
      rewrite B1, B2, andb_comm. reflexivity.
    + intros j e He. assert (Lj : (j < p_n P)%nat \/ (p_n P <= j)%nat) by lia. destruct Lj as [Lj|Lj].
      * rewrite (packed_column _ _ _ _ _ PK EV IT Lj) in He. apply in_map_iff in He. destruct He as (t & <- & Ht). apply filter_In in Ht. destruct Ht as (Ht & _).
        apply filter_In in Ht. destruct Ht as (Ht & K). rewrite TM in Ht. apply in_map_iff in Ht. destruct Ht as (p & <- & Hp). unfold keep, krow, trow in *. cbn [fst snd] in *.
        rewrite lin_index_nth in *. destruct (nth _ (p_lin P) false) eqn:NL; [|discriminate]. cbn [Nat.add]. apply rank_lt, NL.
      * unfold column in He. destruct PK as (_ & _ & LL & _). rewrite (nth_overflow (c_len A)) in He by lia. destruct He.
Qed.

(** A Jacobian that is not listed by columns. *)
Definition Pbad : nlp := mkNlp 2 2 0 [Fin 0; Fin 0] [Fin 1; Fin 1] [MInf; MInf] [Fin 1; Fin 1] [true; true] [true; true] [0; 0] [0; 0]
  (fun _ => 0) (fun _ => [0; 0]) (fun x => [nth 0 x 0 + 2 * nth 1 x 0; 3 * nth 0 x 0 + 4 * nth 1 x 0])
  [(0, 0); (0, 1); (1, 0); (1, 1)]%nat (fun _ => [1; 2; 3; 4]) [] (fun _ _ _ => []).
Lemma Pbad_ok : nlp_ok Pbad.
Proof. constructor; intros; cbn; try reflexivity; repeat constructor; cbn; lia. Qed.
Lemma matrix_bad : ~ C42_matrix (fun _ => True).
Proof.
  intros H. destruct (H isort Pbad [0; 0] isort_ok Pbad_ok eq_refl Logic.I) as (A & E & (L & _)).
  assert (X : exists A0, mr_matrix isort Pbad [0; 0] = Ok A0 /\ coef (column A0 0) 1 == 2).
  { eexists. split; [vm_compute; reflexivity|]. vm_compute. reflexivity. }
  destruct X as (A0 & E0 & X). assert (A0 = A) by congruence. subst A0.
  assert (Hn : (0 < p_n Pbad)%nat) by (cbn; lia). specialize (L 1%nat 0%nat eq_refl Hn).
  change (rank (p_lin Pbad) 1) with 1%nat in L. rewrite X in L. vm_compute in L. discriminate.
Qed.
