(** Proofs for Io_Model. *)
From Verif Require Import Base Arr Io_Model Io_Spec.
#[local] Open Scope Q_scope.

(** ** SOS copy *)
Lemma move_cells_ok {A} (k : nat) : forall (src : arr A) n, (k <= length src)%nat -> (k <= n)%nat ->
  exists r, move_cells k src (fresh n) = Ok r /\ length r = length src /\
    (forall i, (i < k)%nat -> nth_error r i = Some None) /\ (forall i, (k <= i)%nat -> nth_error r i = nth_error src i).
Proof.
  induction k as [|k IH]; intros src n L1 L2; cbn [move_cells].
  - exists src. split; [reflexivity|]. split; [reflexivity|]. split; [lia|reflexivity].
  - destruct (IH src n) as (r & E & L & B & T); [lia|lia|]. rewrite E. cbn [bind].
    assert (T1 : Nat.ltb k (length r) = true) by (apply Nat.ltb_lt; lia).
    assert (T2 : Nat.ltb k (length (@fresh A n)) = true) by (apply Nat.ltb_lt; rewrite fresh_length; lia).
    rewrite T1, T2. cbn [andb].
    assert (NN : nth k (@fresh A n) None = None) by (unfold fresh; apply nth_repeat).
    rewrite NN. eexists. split; [reflexivity|]. split; [rewrite upd_length by lia; exact L|].
    assert (G : forall i, nth_error (firstn k r ++ None :: skipn (S k) r) i = if Nat.eqb i k then Some None else nth_error r i).
    { intros i. assert (LK : (k < length r)%nat) by lia. clear - LK. revert r k LK. induction i as [|i IHi]; intros r k LK.
      - destruct r as [|c r]; [simpl in LK; lia|]. destruct k; reflexivity.
      - destruct r as [|c r]; [simpl in LK; lia|]. destruct k as [|k]; [reflexivity|].
        cbn [firstn skipn app nth_error Nat.eqb]. apply (IHi r k). simpl in LK. lia. }
    split; intros i H; rewrite G.
    + destruct (Nat.eqb_spec i k); [reflexivity|]. apply B. lia.
    + destruct (Nat.eqb_spec i k); [lia|]. apply T. lia.
Qed.

Lemma filled_len {A} k (p : option (arr A)) : filled k p -> exists a, p = Some a /\ length a = k.
Proof. intros (l & L & ->). eexists. split; [reflexivity|]. rewrite map_length. exact L. Qed.
Lemma lost_fresh {A} k n : (k <= n)%nat -> @lost A k (Some (fresh n)).
Proof.
  intros L. exists (fresh n). split; [reflexivity|]. intros i H. unfold fresh. revert i H. revert L. revert n.
  induction k as [|k IH]; intros n L i H; [lia|]. destruct n as [|n]; [lia|]. destruct i as [|i]; [reflexivity|].
  cbn [repeat nth_error]. apply (IH n); lia.
Qed.

Lemma sos_copy_lost s : sos_ok s -> (0 < s_num s)%nat ->
  exists c s', sos_copy s = Ok (c, s') /\ sos_lost c (s_num s) (s_nnz s) /\ sos_lost s' (s_num s) (s_nnz s) /\
    s_num c = s_num s /\ s_num s' = s_num s /\ s_nnz c = s_nnz s /\ s_nnz s' = s_nnz s.
Proof.
  intros OK N. destruct OK as [(Z & _)|(_ & F1 & F2 & F3 & F4 & F5)]; [lia|].
  apply filled_len in F1; destruct F1 as (a1 & E1 & L1). apply filled_len in F2; destruct F2 as (a2 & E2 & L2).
  apply filled_len in F3; destruct F3 as (a3 & E3 & L3). apply filled_len in F4; destruct F4 as (a4 & E4 & L4).
  apply filled_len in F5; destruct F5 as (a5 & E5 & L5).
  unfold sos_copy. apply Nat.ltb_lt in N. rewrite N, E1, E2, E3, E4, E5. cbn [nonnull bind].
  destruct (move_cells_ok (s_num s) a1 (s_num s)) as (r1 & M1 & _ & B1 & _); [lia|lia|].
  destruct (move_cells_ok (s_num s) a2 (s_num s)) as (r2 & M2 & _ & B2 & _); [lia|lia|].
  destruct (move_cells_ok (s_num s) a3 (S (s_num s))) as (r3 & M3 & _ & B3 & _); [lia|lia|].
  destruct (move_cells_ok (s_nnz s) a4 (s_nnz s)) as (r4 & M4 & _ & B4 & _); [lia|lia|].
  destruct (move_cells_ok (s_nnz s) a5 (s_nnz s)) as (r5 & M5 & _ & B5 & _); [lia|lia|].
  rewrite M1. cbn [bind]. rewrite M2. cbn [bind]. rewrite M3. cbn [bind]. rewrite M4. cbn [bind]. rewrite M5. cbn [bind].
  do 2 eexists. split; [reflexivity|]. unfold sos_lost. cbn [s_types s_prior s_starts s_ind s_wgt s_num s_nnz].
  split; [|split; [|auto]].
  - split; [apply lost_fresh; lia|]. split; [apply lost_fresh; lia|]. split; [apply lost_fresh; lia|]. split; apply lost_fresh; lia.
  - split; [exists r1; auto|]. split; [exists r2; auto|]. split; [exists r3; auto|]. split; [exists r4; auto|exists r5; auto].
Qed.
Lemma filled_not_lost {A} k (p : option (arr A)) : (0 < k)%nat -> filled k p -> ~ lost k p.
Proof.
  intros K (l & L & ->) (l' & E & H). injection E as <-. specialize (H 0%nat K). destruct l; simpl in *; [lia|discriminate].
Qed.

(** ** Branching info, perturbation radii *)
Lemma copy_array_ok {A} n (p : option (list A)) : opt_len n p -> copy_array p n = Ok p.
Proof.
  destruct p as [l|]; cbn; [|reflexivity]. intros <-. rewrite Nat.leb_refl, firstn_all. reflexivity.
Qed.

Lemma set_nulls n k : setPerturbations n (repeat None k) PNull = Ok PNull.
Proof. induction k as [|k IH]; [reflexivity|]. exact IH. Qed.
Lemma setPs_app n h1 : forall h2 p, setPerturbations n (h1 ++ h2) p = do p' <- setPerturbations n h1 p; setPerturbations n h2 p'.
Proof.
  induction h1 as [|a h1 IH]; intros h2 p; [reflexivity|]. cbn [app setPerturbations].
  destruct (setPerturbation n a p); try reflexivity. cbn [bind]. apply IH.
Qed.
Lemma set_arrays n : forall ls p, Forall (fun l : list Q => length l = n) ls -> p <> PFreed ->
  setPerturbations n (map Some ls) p = Ok (match ls with [] => p | _ => PLive (last ls []) end).
Proof.
  induction ls as [|l ls IH]; intros p F N; [reflexivity|]. apply Forall_cons_iff in F. destruct F as (L & F).
  cbn [map setPerturbations]. unfold setPerturbation.
  replace (del p) with (Ok tt) by (destruct p; [reflexivity|reflexivity|congruence]). cbn [bind].
  rewrite L, Nat.leb_refl. cbn [bind]. rewrite IH by (auto; discriminate).
  replace (firstn n l) with l by (rewrite <- L; symmetry; apply firstn_all).
  destruct ls; reflexivity.
Qed.
Lemma last_app_some {A} (l1 : list A) l2 d : l2 <> [] -> last (l1 ++ l2) d = last l2 d.
Proof.
  intros N. induction l1 as [|a l1 IH]; [reflexivity|]. cbn [app]. destruct (l1 ++ l2) eqn:E.
  - apply app_eq_nil in E. tauto.
  - rewrite <- IH. reflexivity.
Qed.
Lemma last_map_some {A} (ls : list A) d : ls <> [] -> last (map Some ls) None = Some (last ls d).
Proof.
  induction ls as [|a ls IH]; intros N; [congruence|]. destruct ls as [|b ls]; [reflexivity|].
  change (last (map Some (b :: ls)) None = Some (last (b :: ls) d)). apply IH. discriminate.
Qed.
(** Either no NULL follows an array, or there is a first one that does. *)
Lemma nulls_dec h : nulls_first h \/ exists k ls (l : list Q) r, h = repeat None k ++ map Some (ls ++ [l]) ++ None :: r.
Proof.
  induction h as [|a h IH] using rev_ind; [left; exists 0%nat, []; reflexivity|].
  destruct IH as [(k & ls & ->)|(k & ls & l & r & ->)].
  - destruct a as [l|].
    + left. exists k, (ls ++ [l]). rewrite map_app, app_assoc. reflexivity.
    + destruct (rev ls) as [|l ls'] eqn:R.
      * left. exists (S k), []. apply (f_equal (@rev _)) in R. rewrite rev_involutive in R. cbn in R. subst ls.
        cbn [map]. rewrite !app_nil_r. change (repeat (@None (list Q)) (S k)) with (None :: repeat (@None (list Q)) k).
        clear. induction k; cbn; [reflexivity|]. f_equal. exact IHk.
      * right. exists k, (rev ls'), l, []. apply (f_equal (@rev _)) in R. rewrite rev_involutive in R. cbn in R.
        rewrite R, <- app_assoc. reflexivity.
  - right. exists k, ls, l, (r ++ [a]). rewrite <- !app_assoc. reflexivity.
Qed.
Lemma freed_bad n r : (do p <- setPerturbations n r PFreed; getPerturbation p) = Dangling.
Proof. destruct r as [|a r]; reflexivity. Qed.

(** ** hasGeneralInteger *)
Definition odd_bounds (v : vtype * ext * ext) : bool :=
  let '(t, l, u) := v in
  match t with INT =>
    (match l with MInf => true | PInf => true | Fin a => Qltb a (- (99 # 100)) || Qltb (99 # 100) a end ||
     match u with MInf => true | PInf => true | Fin b => Qltb b (1 # 100) || Qltb (199 # 100) b end)%bool
  | _ => false end.
Lemma hgi_exists vs : hasGeneralInteger vs = true <-> Exists (fun v => odd_bounds v = true) vs.
Proof.
  induction vs as [|((t, l), u) vs IH]; cbn [hasGeneralInteger].
  - split; [discriminate|intros H; inversion H].
  - rewrite Exists_cons, <- IH. unfold odd_bounds. destruct t; [intuition congruence..|].
    match goal with |- context [if ?b then _ else _] => destruct b end; intuition congruence.
Qed.
Lemma takes_other_odd v : takes_other v -> odd_bounds v = true.
Proof.
  destruct v as ((t, l), u). intros (-> & z & N0 & N1 & L & U). cbn [odd_bounds].
  destruct l as [|a|]; [reflexivity| |destruct L]. destruct u as [|b|]; [destruct U| |destruct (Qltb a _ || Qltb _ a)%bool; reflexivity].
  cbn [lo_ok up_ok] in L, U.
  destruct (Z_lt_le_dec z 0) as [Hz|Hz].
  - assert (inject_Z z <= - (1)) by (change (- (1)) with (inject_Z (-1)); rewrite <- Zle_Qle; lia).
    rewrite (proj2 (Qltb_lt a (- (99 # 100)))) by lra. reflexivity.
  - assert (inject_Z 2 <= inject_Z z) by (rewrite <- Zle_Qle; lia). change (inject_Z 2) with 2 in *.
    rewrite (proj2 (Qltb_lt (199 # 100) b)) by lra. rewrite !orb_true_r. reflexivity.
Qed.
Lemma odd_int v : int_bounds v -> (odd_bounds v = true <-> fst (fst v) = INT /\ ~ zero_one v).
Proof.
  destruct v as ((t, l), u). cbn [fst]. intros (L & U). destruct t; cbn [odd_bounds]; [intuition congruence..|].
  split; intros H.
  - split; [reflexivity|]. intros (-> & ->). revert H. vm_compute. discriminate.
  - destruct H as (_ & H).
    destruct L as [->|(a & ->)]; [reflexivity|]. destruct U as [->|(b & ->)]; [rewrite orb_true_r; reflexivity|].
    match goal with |- ?e = true => destruct e eqn:E; [reflexivity|] end.
    exfalso. apply H. apply orb_false_iff in E. destruct E as (E1 & E2).
    apply orb_false_iff in E1. apply orb_false_iff in E2. destruct E1 as (A1 & A2), E2 as (B1 & B2).
    apply Qltb_ge in A1, A2, B1, B2.
    assert (a = 0)%Z.
    { destruct (Z_lt_le_dec a 0) as [Hz|Hz].
      - assert (inject_Z a <= inject_Z (-1)) by (rewrite <- Zle_Qle; lia). change (inject_Z (-1)) with (- (1)) in *. lra.
      - destruct (Z_lt_le_dec 0 a) as [Hy|Hy]; [|lia].
        assert (inject_Z 1 <= inject_Z a) by (rewrite <- Zle_Qle; lia). change (inject_Z 1) with 1 in *. lra. }
    assert (b = 1)%Z.
    { destruct (Z_lt_le_dec b 1) as [Hz|Hz].
      - assert (inject_Z b <= inject_Z 0) by (rewrite <- Zle_Qle; lia). change (inject_Z 0) with 0 in *. lra.
      - destruct (Z_lt_le_dec 1 b) as [Hy|Hy]; [|lia].
        assert (inject_Z 2 <= inject_Z b) by (rewrite <- Zle_Qle; lia). change (inject_Z 2) with 2 in *. lra. }
    subst. split; reflexivity.
Qed.

(** ** Bounds files *)
Definition nlline (e : entry) : list tok := line e ++ [TNL].
Fixpoint diffs (prt : Q -> Q) (i : Z) (vs : list bnd) : list entry :=
  match vs with
  | [] => []
  | v :: vs' => (if releq (cur_l v) (org_l v) then [] else [(LO, i, prt (cur_l v))]) ++
                (if releq (cur_u v) (org_u v) then [] else [(UP, i, prt (cur_u v))]) ++ diffs prt (i + 1) vs'
  end.
Lemma write_diffs prt : forall vs i, write_bounds prt i vs = flat_map nlline (diffs prt i vs).
Proof.
  induction vs as [|((cl, cu), (ol, ou)) vs IH]; intros i; [reflexivity|]. cbn [write_bounds diffs cur_l cur_u org_l org_u fst snd].
  rewrite IH. destruct (releq cl ol), (releq cu ou); reflexivity.
Qed.
Definition clean (r : list tok) : stream := {| rest := r; eofb := false; failb := false |}.
Definition ended : stream := {| rest := []; eofb := true; failb := true |}.
Definition count (d : side) (es : list entry) : nat := length (of_side d es).
Definition side_of (e : entry) : side := fst (fst e).
Definition lastside (w : option side) (es : list entry) : option side :=
  match es with [] => w | _ => Some (side_of (last es (LO, 0%Z, 0))) end.
Lemma lastside_cons w e es : lastside w (e :: es) = lastside (Some (side_of e)) es.
Proof. destruct es; reflexivity. Qed.
Lemma fm_cons d i q es : flat_map nlline ((d, i, q) :: es) = TSide d :: TInt i :: TReal q :: TNL :: flat_map nlline es.
Proof. reflexivity. Qed.
Lemma rs_ok d t r w : read_str (clean (TSide d :: t :: r)) w = (Some d, clean (t :: r)).
Proof. reflexivity. Qed.
Lemma ri_ok i t r o : read_int (clean (TInt i :: t :: r)) o = (Some i, clean (t :: r)).
Proof. reflexivity. Qed.
Lemma rr_ok q t r o : read_real (clean (TReal q :: t :: r)) o = (Some q, clean (t :: r)).
Proof. reflexivity. Qed.
Lemma ign1 r : ignore_line (clean (TNL :: r)) = clean r.
Proof. reflexivity. Qed.
Lemma ign3 i q r : ignore_line (clean (TInt i :: TReal q :: TNL :: r)) = clean r.
Proof. reflexivity. Qed.
Lemma clean_eof r : eofb (clean r) = false.
Proof. reflexivity. Qed.
Lemma pass1_lines : forall es fuel w nl nu, (S (length (flat_map nlline es)) <= fuel)%nat ->
  pass1 fuel (clean (flat_map nlline es)) w nl nu =
  match lastside w es with
  | None => Thrown
  | Some LO => Ok (S (count LO es + nl), (count UP es + nu))%nat
  | Some UP => Ok (count LO es + nl, S (count UP es + nu))%nat
  end.
Proof.
  induction es as [|((d, i), q) es IH]; intros fuel w nl nu F; (destruct fuel as [|fuel]; [simpl in F; lia|]).
  - cbn [pass1 clean eofb flat_map read_str next_tok orb failb rest skip_nl]. cbn.
    destruct w as [[|]|]; [destruct fuel; reflexivity..|reflexivity].
  - rewrite fm_cons in *. cbn [length] in F.
    cbn [pass1]. rewrite clean_eof, rs_ok, ign3.
    rewrite lastside_cons. unfold side_of. cbn [fst].
    destruct d; rewrite IH by lia; destruct (lastside _ es) as [[|]|]; try reflexivity; unfold count; cbn [of_side length]; f_equal; f_equal; lia.
Qed.
Lemma last_word_acc : forall es w, fold_left (fun acc t => match t with TSide d => Some d | _ => acc end) (flat_map nlline es) w = lastside w es.
Proof.
  induction es as [|((d, i), q) es IH]; intros w; [reflexivity|]. rewrite fm_cons. cbn [fold_left].
  rewrite lastside_cons. apply IH.
Qed.
Lemma of_side_app d es1 es2 : of_side d (es1 ++ es2) = of_side d es1 ++ of_side d es2.
Proof.
  induction es1 as [|((d', i), q) es1 IH]; [reflexivity|]. cbn [app of_side]. rewrite IH. destruct d, d'; reflexivity.
Qed.
(** The second pass over complete lines, then on: each line is one entry. *)
Lemma pass2_lines reuse cl cu : forall es fuel w ix bd lows ups,
  (S (length (flat_map nlline es)) <= fuel)%nat -> (length lows + count LO es <= cl)%nat -> (length ups + count UP es <= cu)%nat ->
  exists f', (1 <= f')%nat /\
  pass2 reuse cl cu fuel (clean (flat_map nlline es)) w ix bd lows ups =
  pass2 reuse cl cu f' (clean []) (lastside w es)
    (match es with [] => ix | _ => Some (snd (fst (last es (LO, 0%Z, 0)))) end)
    (match es with [] => bd | _ => Some (snd (last es (LO, 0%Z, 0))) end)
    (lows ++ of_side LO es) (ups ++ of_side UP es).
Proof.
  induction es as [|((d, i), q) es IH]; intros fuel w ix bd lows ups F C1 C2.
  - exists fuel. split; [simpl in F; lia|]. cbn [flat_map of_side lastside]. rewrite !app_nil_r. reflexivity.
  - destruct fuel as [|fuel]; [simpl in F; lia|].
    rewrite fm_cons in *. cbn [length] in F.
    cbn [pass2]. rewrite clean_eof, rs_ok, ri_ok, rr_ok, ign1.
    unfold count in C1, C2. rewrite lastside_cons. unfold side_of. cbn [fst].
    destruct d; cbn [of_side length] in C1, C2.
    + assert (T : Nat.ltb (length lows) cl = true) by (apply Nat.ltb_lt; lia). rewrite T.
      destruct (IH fuel (Some LO) (Some i) (Some q) (lows ++ [(i, q)]) ups) as (f' & FP & E);
        [lia|rewrite app_length; cbn [length]; unfold count; lia|unfold count; lia|].
      exists f'. split; [exact FP|]. rewrite E. destruct es; cbn [of_side]; rewrite <- !app_assoc; reflexivity.
    + assert (T : Nat.ltb (length ups) cu = true) by (apply Nat.ltb_lt; lia). rewrite T.
      destruct (IH fuel (Some UP) (Some i) (Some q) lows (ups ++ [(i, q)])) as (f' & FP & E);
        [lia|unfold count; lia|rewrite app_length; cbn [length]; unfold count; lia|].
      exists f'. split; [exact FP|]. rewrite E. destruct es; cbn [of_side]; rewrite <- !app_assoc; reflexivity.
Qed.
(** Reading a file of complete lines. *)
Definition dup (es : list entry) : list entry := es ++ [last es (LO, 0%Z, 0)].
Lemma read_lines reuse es : read_bounds reuse (flat_map nlline es) =
  match es with [] => Thrown | _ => if reuse then Ok (of_side LO (dup es), of_side UP (dup es)) else Uninit end.
Proof.
  unfold read_bounds. change (sopen (flat_map nlline es)) with (clean (flat_map nlline es)).
  rewrite pass1_lines by lia. unfold last_word. rewrite last_word_acc.
  destruct es as [|e es]; [reflexivity|].
  remember (e :: es) as es' eqn:EE.
  assert (LS : forall w, lastside w es' = Some (side_of (last es' (LO, 0%Z, 0)))) by (subst; reflexivity).
  rewrite LS.
  assert (G : forall c1 c2, (count LO es' <= c1)%nat -> (count UP es' <= c2)%nat ->
     match last es' (LO, 0%Z, 0) with (LO, _, _) => (count LO es' < c1)%nat | (UP, _, _) => (count UP es' < c2)%nat end ->
     pass2 reuse c1 c2 (S (length (flat_map nlline es'))) (clean (flat_map nlline es')) (Some (side_of (last es' (LO, 0%Z, 0)))) None None [] [] =
     if reuse then Ok (of_side LO (dup es'), of_side UP (dup es')) else Uninit).
  { intros c1 c2 B1 B2 B3. destruct (pass2_lines reuse c1 c2 es' (S (length (flat_map nlline es'))) (Some (side_of (last es' (LO, 0%Z, 0)))) None None [] []) as (f' & FP & E);
      [lia|exact B1|exact B2|]. rewrite E, LS. cbn [app].
    assert (MM : forall {A} (a b : A), match es' with [] => a | _ => b end = b) by (intros; subst; reflexivity). rewrite !MM.
    destruct f' as [|f']; [lia|]. unfold dup. rewrite !of_side_app.
    destruct (last es' (LO, 0%Z, 0)) as ((d, i), q) eqn:LE. unfold side_of. cbn [fst snd].
    unfold clean. cbn [pass2 eofb]. unfold read_str, read_int, read_real, next_tok. cbn [eofb failb orb rest skip_nl].
    destruct reuse; [|reflexivity]. cbn [of_side].
    destruct d; unfold count in B3.
    - assert (T : Nat.ltb (length (of_side LO es')) c1 = true) by (apply Nat.ltb_lt; lia). rewrite T.
      destruct f'; cbn; rewrite app_nil_r; reflexivity.
    - assert (T : Nat.ltb (length (of_side UP es')) c2 = true) by (apply Nat.ltb_lt; lia). rewrite T.
      destruct f'; cbn; rewrite app_nil_r; reflexivity. }
  unfold side_of in *. destruct (last es' (LO, 0%Z, 0)) as ((d, i), q) eqn:LE. cbn [fst] in *.
  destruct d; cbn [bind]; apply G; lia.
Qed.

(** Applying entries. *)
Lemma set_bounds_app es1 : forall es2 l, set_bounds (es1 ++ es2) l = do l' <- set_bounds es1 l; set_bounds es2 l'.
Proof.
  induction es1 as [|e es1 IH]; intros es2 l; [reflexivity|]. cbn [app set_bounds].
  destruct (set_bound l e); try reflexivity. cbn [bind]. apply IH.
Qed.
Lemma set_bound_ok pre a suf v : set_bound (pre ++ a :: suf) (Z.of_nat (length pre), v) = Ok (pre ++ v :: suf).
Proof.
  unfold set_bound. cbn [fst snd]. rewrite app_length. cbn [length].
  assert (T : (Z.leb 0 (Z.of_nat (length pre)) && Z.ltb (Z.of_nat (length pre)) (Z.of_nat (length pre + S (length suf))))%bool = true).
  { apply andb_true_iff. split; [apply Z.leb_le; lia|apply Z.ltb_lt; lia]. }
  rewrite T, Nat2Z.id, lset_ok by (rewrite app_length; cbn [length]; lia).
  rewrite firstn_app, firstn_all, Nat.sub_diag. cbn [firstn]. rewrite app_nil_r.
  f_equal. f_equal. f_equal. clear T. induction pre as [|b pre IH]; [reflexivity|]. exact IH.
Qed.
Definition exp_l (prt : Q -> Q) (v : bnd) : Q := if releq (cur_l v) (org_l v) then org_l v else prt (cur_l v).
Definition exp_u (prt : Q -> Q) (v : bnd) : Q := if releq (cur_u v) (org_u v) then org_u v else prt (cur_u v).
Lemma apply_lo prt : forall vs pre, set_bounds (of_side LO (diffs prt (Z.of_nat (length pre)) vs)) (pre ++ map org_l vs) = Ok (pre ++ map (exp_l prt) vs).
Proof.
  induction vs as [|v vs IH]; intros pre; [reflexivity|]. cbn [diffs map].
  specialize (IH (pre ++ [exp_l prt v])). rewrite <- !app_assoc in IH. cbn [app] in IH.
  replace (Z.of_nat (length (pre ++ [exp_l prt v]))) with (Z.of_nat (length pre) + 1)%Z in IH by (rewrite app_length; cbn [length]; lia).
  rewrite !of_side_app. destruct (releq (cur_u v) (org_u v)); cbn [of_side app];
  (destruct (releq (cur_l v) (org_l v)) eqn:R; cbn [of_side app set_bounds];
   [replace (exp_l prt v) with (org_l v) in * by (unfold exp_l; rewrite R; reflexivity); exact IH
   |rewrite set_bound_ok; replace (exp_l prt v) with (prt (cur_l v)) in * by (unfold exp_l; rewrite R; reflexivity); exact IH]).
Qed.
Lemma apply_up prt : forall vs pre, set_bounds (of_side UP (diffs prt (Z.of_nat (length pre)) vs)) (pre ++ map org_u vs) = Ok (pre ++ map (exp_u prt) vs).
Proof.
  induction vs as [|v vs IH]; intros pre; [reflexivity|]. cbn [diffs map].
  specialize (IH (pre ++ [exp_u prt v])). rewrite <- !app_assoc in IH. cbn [app] in IH.
  replace (Z.of_nat (length (pre ++ [exp_u prt v]))) with (Z.of_nat (length pre) + 1)%Z in IH by (rewrite app_length; cbn [length]; lia).
  rewrite !of_side_app. destruct (releq (cur_l v) (org_l v)); cbn [of_side app];
  (destruct (releq (cur_u v) (org_u v)) eqn:R; cbn [of_side app set_bounds];
   [replace (exp_u prt v) with (org_u v) in * by (unfold exp_u; rewrite R; reflexivity); exact IH
   |rewrite set_bound_ok; replace (exp_u prt v) with (prt (cur_u v)) in * by (unfold exp_u; rewrite R; reflexivity); exact IH]).
Qed.
(** Setting again an entry of the list that is the only one for its variable changes nothing. *)
Lemma set_bound_twice l e l' : set_bound l e = Ok l' -> set_bound l' e = Ok l'.
Proof.
  unfold set_bound. intros H. destruct (Z.leb 0 (fst e) && Z.ltb (fst e) (Z.of_nat (length l)))%bool eqn:E; [|discriminate].
  apply andb_true_iff in E. destruct E as (E1 & E2). apply Z.leb_le in E1. apply Z.ltb_lt in E2.
  rewrite lset_ok in H by lia.
  assert (EL : l' = firstn (Z.to_nat (fst e)) l ++ snd e :: skipn (S (Z.to_nat (fst e))) l) by congruence.
  clear H. subst l'. rewrite upd_length by lia.
  assert (T : (Z.leb 0 (fst e) && Z.ltb (fst e) (Z.of_nat (length l)))%bool = true).
  { apply andb_true_iff. split; [apply Z.leb_le; lia|apply Z.ltb_lt; lia]. }
  rewrite T, lset_ok by (rewrite upd_length; lia). f_equal.
  assert (FN : forall k (m : list Q) a, (k < length m)%nat ->
    firstn k (firstn k m ++ a :: skipn (S k) m) ++ a :: skipn (S k) (firstn k m ++ a :: skipn (S k) m) = firstn k m ++ a :: skipn (S k) m).
  { induction k as [|k IH]; intros [|b m] a K; simpl in K; try lia; [reflexivity|].
    cbn [firstn skipn app]. f_equal. apply IH. lia. }
  apply FN. lia.
Qed.
Lemma set_last es e l l' : set_bounds (es ++ [e]) l = Ok l' -> set_bound l' e = Ok l'.
Proof.
  rewrite set_bounds_app. intros H. apply bind_ok in H. destruct H as (m & _ & H). cbn [set_bounds] in H.
  apply bind_ok in H. destruct H as (l2 & H & E). injection E as <-. eapply set_bound_twice, H.
Qed.
Lemma dup_sides d es : es <> [] ->
  of_side d (dup es) = of_side d es ++ (if match d, side_of (last es (LO, 0%Z, 0)) with LO, LO | UP, UP => true | _, _ => false end
                                         then [(snd (fst (last es (LO, 0%Z, 0))), snd (last es (LO, 0%Z, 0)))] else []).
Proof.
  intros N. unfold dup. rewrite of_side_app. destruct (last es (LO, 0%Z, 0)) as ((d', i), q).
  f_equal. destruct d, d'; reflexivity.
Qed.
Lemma set_dup d es l l' : es <> [] -> set_bounds (of_side d es) l = Ok l' -> set_bounds (of_side d (dup es)) l = Ok l'.
Proof.
  intros N H. rewrite dup_sides by exact N. rewrite set_bounds_app, H. cbn [bind].
  destruct (exists_last N) as (es0 & e & E). subst es. rewrite last_last. rewrite of_side_app in H.
  destruct e as ((d', i), q). unfold side_of. cbn [fst snd].
  destruct d, d'; try reflexivity; cbn [of_side] in H; apply set_last in H; cbn [set_bounds]; rewrite H; reflexivity.
Qed.
Lemma releq_changed v : (releq (cur_l v) (org_l v) && releq (cur_u v) (org_u v))%bool = false <-> changed v.
Proof.
  unfold releq, changed. rewrite andb_false_iff, !Qleb_gt. reflexivity.
Qed.
Lemma changed_dec vs : Exists changed vs \/ ~ Exists changed vs.
Proof.
  induction vs as [|v vs IH]; [right; intros H; inversion H|].
  destruct (releq (cur_l v) (org_l v) && releq (cur_u v) (org_u v))%bool eqn:E.
  - destruct IH as [IH|IH]; [left; right; exact IH|]. right. intros H. apply Exists_cons in H. destruct H as [H|H]; [|contradiction].
    apply releq_changed in H. congruence.
  - left. left. apply releq_changed. exact E.
Qed.
Lemma diffs_nil prt : forall vs i, diffs prt i vs = [] <-> ~ Exists changed vs.
Proof.
  induction vs as [|v vs IH]; intros i; cbn [diffs].
  - split; [intros _ H; inversion H|reflexivity].
  - rewrite Exists_cons, <- releq_changed. specialize (IH (i + 1)%Z).
    destruct (releq (cur_l v) (org_l v)), (releq (cur_u v) (org_u v)); cbn [app andb]; try (split; [discriminate|intros H; exfalso; apply H; left; reflexivity]).
    rewrite IH. intuition congruence.
Qed.

(** Files without a final end of line. *)
Lemma nofinal_cons e es : es <> [] -> no_final_nl (e :: es) = line e ++ TNL :: no_final_nl es.
Proof. destruct es; [congruence|reflexivity]. Qed.
Lemma pass1_last e w nl nu fuel : (2 <= fuel)%nat ->
  pass1 fuel (clean (line e)) w nl nu = Ok (match side_of e with LO => (S nl, nu) | UP => (nl, S nu) end).
Proof.
  intros F. destruct e as ((d, i), q). destruct fuel as [|[|f]]; [lia|lia|].
  cbn. unfold read_str, next_tok, ignore_line. cbn. destruct d; reflexivity.
Qed.
Lemma pass1_nofinal : forall es e fuel w nl nu, (S (length (no_final_nl (es ++ [e]))) <= fuel)%nat ->
  pass1 fuel (clean (no_final_nl (es ++ [e]))) w nl nu = Ok (count LO (es ++ [e]) + nl, count UP (es ++ [e]) + nu)%nat.
Proof.
  induction es as [|e0 es IH]; intros e fuel w nl nu F.
  - cbn [app] in *. cbn [no_final_nl] in *. rewrite pass1_last by (destruct e as ((?, ?), ?); simpl in F; lia).
    destruct e as (([|], ?), ?); reflexivity.
  - assert (NE : es ++ [e] <> []) by (intros Z0; apply app_eq_nil in Z0; destruct Z0; discriminate).
    change ((e0 :: es) ++ [e]) with (e0 :: (es ++ [e])) in *.
    rewrite (nofinal_cons e0 (es ++ [e]) NE) in F |- *. destruct e0 as ((d, i), q). cbn [line app length] in F. destruct fuel as [|fuel]; [lia|].
    cbn [line app]. cbn [pass1]. rewrite clean_eof, rs_ok, ign3.
    destruct d; rewrite IH by lia; unfold count; cbn [app of_side length]; f_equal; f_equal; lia.
Qed.
Lemma pass2_nofinal reuse cl cu : forall es e fuel w ix bd lows ups, (S (length (no_final_nl (es ++ [e]))) <= fuel)%nat ->
  (length lows + count LO (es ++ [e]) <= cl)%nat -> (length ups + count UP (es ++ [e]) <= cu)%nat ->
  pass2 reuse cl cu fuel (clean (no_final_nl (es ++ [e]))) w ix bd lows ups = Ok (lows ++ of_side LO (es ++ [e]), ups ++ of_side UP (es ++ [e])).
Proof.
  induction es as [|e0 es IH]; intros e fuel w ix bd lows ups F C1 C2.
  - cbn [app] in *. cbn [no_final_nl] in *. destruct e as ((d, i), q). cbn [line length] in F.
    destruct fuel as [|[|fuel]]; [lia|lia|]. unfold count in *.
    unfold clean. cbn [line pass2 eofb]. unfold read_str, read_int, read_real, next_tok. cbn [eofb failb orb rest skip_nl].
    unfold ignore_line. cbn [eofb failb orb rest].
    destruct d; cbn [of_side length] in *.
    + assert (T : Nat.ltb (length lows) cl = true) by (apply Nat.ltb_lt; lia). rewrite T. rewrite app_nil_r. reflexivity.
    + assert (T : Nat.ltb (length ups) cu = true) by (apply Nat.ltb_lt; lia). rewrite T. rewrite app_nil_r. reflexivity.
  - assert (NE : es ++ [e] <> []) by (intros Z0; apply app_eq_nil in Z0; destruct Z0; discriminate).
    change ((e0 :: es) ++ [e]) with (e0 :: (es ++ [e])) in *.
    rewrite (nofinal_cons e0 (es ++ [e]) NE) in F |- *. destruct e0 as ((d, i), q). cbn [line app length] in F. destruct fuel as [|fuel]; [lia|]. unfold count in *.
    cbn [line app]. cbn [pass2]. rewrite clean_eof, rs_ok, ri_ok, rr_ok, ign1.
    destruct d; cbn [app of_side length] in *.
    + assert (T : Nat.ltb (length lows) cl = true) by (apply Nat.ltb_lt; lia). rewrite T.
      rewrite IH; [rewrite <- app_assoc; reflexivity|lia|rewrite app_length; cbn [length]; lia|lia].
    + assert (T : Nat.ltb (length ups) cu = true) by (apply Nat.ltb_lt; lia). rewrite T.
      rewrite IH; [rewrite <- app_assoc; reflexivity|lia|lia|rewrite app_length; cbn [length]; lia].
Qed.

(** ** Starting point files *)
Definition nums (l : list Q) : list tok := flat_map (fun q => [TReal q; TNL]) l.
Lemma read_nums : forall l r, (r = [] \/ exists a r', r = a :: r') ->
  read_reals (length l) (clean (TNL :: nums l ++ r)) = (map Some l, clean (match l with [] => TNL :: r | _ => TNL :: r end)).
Proof.
  induction l as [|q l IH]; intros r H; [reflexivity|].
  cbn [length read_reals nums flat_map app]. unfold clean, read_real, next_tok. cbn [eofb failb orb rest skip_nl].
  change {| rest := TNL :: flat_map (fun q0 => [TReal q0; TNL]) l ++ r; eofb := false; failb := false |} with (clean (TNL :: nums l ++ r)).
  rewrite IH by exact H. cbn [map]. destruct l; reflexivity.
Qed.
Lemma agets_map {A} : forall (l : list A), agets (length l) (map Some l) = Ok l.
Proof. induction l as [|a l IH]; [reflexivity|]. cbn [length map agets]. rewrite IH. reflexivity. Qed.
Lemma read_reals_ended : forall k s, (eofb s || failb s)%bool = true -> fst (read_reals k s) = repeat None k.
Proof.
  induction k as [|k IH]; intros s H; [reflexivity|]. cbn [read_reals]. unfold read_real, next_tok. rewrite H.
  specialize (IH {| rest := rest s; eofb := eofb s; failb := true |}). cbn [eofb failb] in IH. rewrite orb_true_r in IH. specialize (IH eq_refl).
  destruct (read_reals k {| rest := rest s; eofb := eofb s; failb := true |}) as (r & s2). cbn [fst] in *. subst r. reflexivity.
Qed.

(** ** Options *)
Lemma find_put o c m o' : find o' (put o c m) = if Nat.eqb o o' then Some c else find o' m.
Proof.
  induction m as [|(k, d) m IH]; cbn [put find].
  - reflexivity.
  - destruct (Nat.eqb_spec k o) as [->|N]; cbn [find].
    + destruct (Nat.eqb o o'); reflexivity.
    + destruct (Nat.eqb_spec k o') as [->|N'].
      * destruct (Nat.eqb_spec o o'); [congruence|reflexivity].
      * exact IH.
Qed.
Lemma abit_inj a b : abit a = abit b -> a = b.
Proof. destruct a, b; cbn; congruence. Qed.
Lemma abit_nonneg a : (0 <= abit a)%Z.
Proof. destruct a; cbn; lia. Qed.
Lemma land_bit c a : negb (Z.eqb (Z.land c (Z.shiftl 1 (abit a))) 0) = Z.testbit c (abit a).
Proof.
  pose proof (abit_nonneg a) as P. rewrite Z.shiftl_1_l.
  destruct (Z.testbit c (abit a)) eqn:T.
  - apply negb_true_iff, Z.eqb_neq. intros H. apply (f_equal (fun z => Z.testbit z (abit a))) in H.
    rewrite Z.land_spec, T, Z.pow2_bits_true, Z.bits_0 in H by lia. discriminate.
  - apply negb_false_iff, Z.eqb_eq. apply Z.bits_inj'. intros n Hn. rewrite Z.land_spec, Z.bits_0.
    destruct (Z.eq_dec n (abit a)) as [->|N]; [rewrite T; reflexivity|]. rewrite Z.pow2_bits_false by lia. apply andb_false_r.
Qed.
Lemma bit_lor c a b : Z.testbit (Z.lor c (Z.shiftl 1 (abit a))) (abit b) = (Z.testbit c (abit b) || (if Z.eqb (abit a) (abit b) then true else false))%bool.
Proof.
  pose proof (abit_nonneg a) as P. pose proof (abit_nonneg b) as P'. rewrite Z.shiftl_1_l, Z.lor_spec.
  destruct (Z.eqb_spec (abit a) (abit b)) as [E|N].
  - rewrite E, Z.pow2_bits_true by lia. reflexivity.
  - rewrite Z.pow2_bits_false by lia. reflexivity.
Qed.
Lemma oruns_snoc known : forall h p m, oruns known (h ++ [p]) m = do m' <- oruns known h m; ostep known p m'.
Proof.
  induction h as [|q h IH]; intros p m; cbn [app oruns].
  - cbn [bind]. destruct (ostep known p m); reflexivity.
  - destruct (ostep known q m); try reflexivity. cbn [bind]. apply IH.
Qed.
(** State of an option after a history (latest call first). *)
Lemma oruns_state known : forall h m, oruns known (rev h) [] = Ok m -> forall o,
  match find o m with
  | None => ~ Exists (about o) h
  | Some c => Exists (about o) h /\ forall a, Z.testbit c (abit a) = true <-> declared o a h
  end.
Proof.
  induction h as [|p h IH]; intros m H o.
  - cbn in H. injection H as <-. cbn. intros E. inversion E.
  - cbn [rev] in H. rewrite oruns_snoc in H. apply bind_ok in H. destruct H as (m' & H & S). specialize (IH _ H).
    destruct p as [o' c|o' a]; cbn [ostep] in S; (destruct (known o'); [|discriminate]); injection S as <-; rewrite find_put.
    + destruct (Nat.eqb_spec o' o) as [->|N].
      * split; [left; reflexivity|]. intros a. split; intros T.
        -- apply d_code, T.
        -- inversion T; subst; try assumption. exfalso. match goal with X : ~ about o _ |- _ => apply X; reflexivity end.
      * specialize (IH o). destruct (find o m') as [d|].
        -- destruct IH as (E & T). split; [right; exact E|]. intros a. rewrite T. split; intros D.
           ++ apply d_opt; [exact N|exact D].
           ++ inversion D; subst; congruence || assumption.
        -- intros E. inversion E; subst; [cbn in *; congruence|contradiction].
    + unfold code_of. destruct (Nat.eqb_spec o' o) as [->|N].
      * split; [left; reflexivity|]. intros b. rewrite bit_lor. rewrite orb_true_iff. specialize (IH o).
        destruct (find o m') as [d|].
        -- destruct IH as (_ & T). rewrite T. destruct (Z.eqb_spec (abit a) (abit b)) as [Eb|Nb].
           ++ apply abit_inj in Eb. subst b. split; [intros _; apply d_here|intros _; right; reflexivity].
           ++ split; [intros [D|D]; [apply d_alg, D|discriminate]|].
              intros D. left. inversion D; subst; [congruence|assumption|]. exfalso. match goal with X : ~ about o _ |- _ => apply X; reflexivity end.
        -- rewrite Z.bits_0. destruct (Z.eqb_spec (abit a) (abit b)) as [Eb|Nb].
           ++ apply abit_inj in Eb. subst b. split; [intros _; apply d_here|intros _; right; reflexivity].
           ++ split; [intros [D|D]; discriminate|]. intros D. exfalso. apply IH.
              assert (X : declared o b h).
              { inversion D; subst; [congruence|assumption|]. match goal with X : ~ about o _ |- _ => exfalso; apply X; reflexivity end. }
              clear - X. induction X; [left; reflexivity|left; reflexivity|right; assumption|right; assumption].
      * specialize (IH o). destruct (find o m') as [d|].
        -- destruct IH as (E & T). split; [right; exact E|]. intros b. rewrite T. split; intros D.
           ++ apply d_opt; [exact N|exact D].
           ++ inversion D; subst; congruence || assumption.
        -- intros E. inversion E; subst; [cbn in *; congruence|contradiction].
Qed.

(** ** Option tables *)
Lemma table_sections : forall os cur, osorted os -> Forall (fun o => cur < fst o)%nat os ->
  exists gs, table cur os = flat_map section_of gs /\ increasing (map fst gs) /\ Forall (fun g => cur < fst g)%nat gs /\
    Forall (fun g => snd g <> [] /\ increasing (snd g)) gs /\ os = flat_map (fun g => map (fun n => (fst g, n)) (snd g)) gs.
Proof.
  intros os0. induction os0 as [os0 IH] using (induction_ltof1 _ (@length opt)).
  - intros cur S C. destruct os0 as [|(c, n) os].
    { exists []. split; [reflexivity|]. split; [constructor|]. split; [constructor|]. split; [constructor|reflexivity]. }
    (* the options of the same category as the first *)
    inversion S as [|a l SA SL]; subst. cbn [fst snd] in SA.
    assert (SP : exists same rest, os = map (fun k => (c, k)) same ++ rest /\ increasing (n :: same) /\ Forall (fun o => c < fst o)%nat rest /\ osorted rest /\ table c os = map (fun k => Line (c, k)) same ++ table c rest).
    { clear - SA SL. revert n SA. induction os as [|(c', n') os IHo]; intros n SA.
      - exists [], []. split; [reflexivity|]. split; [constructor; constructor|]. split; [constructor|]. split; [constructor|reflexivity].
      - inversion SL as [|a l SA' SL']; subst. cbn [fst snd] in SA'. inversion SA as [|? ? H1 H2]; subst. cbn [fst snd] in H1.
        destruct H1 as [H1|(H1 & H1')].
        + exists [], ((c', n') :: os). split; [reflexivity|]. split; [constructor; constructor|]. split.
          * constructor; [exact H1|]. eapply Forall_impl; [|exact SA']. intros (c2, n2). cbn. lia.
          * split; [exact SL|reflexivity].
        + subst c'. destruct (IHo SL' n' SA') as (same & rest & -> & I & R & SR & T).
          exists (n' :: same), rest. split; [reflexivity|]. split; [constructor; [|exact I]|].
          * constructor; [exact H1'|]. inversion I; subst. eapply Forall_impl; [|eassumption]. intros k. cbn. lia.
          * split; [exact R|]. split; [exact SR|]. cbn [table fst]. rewrite Nat.eqb_refl, T. reflexivity. }
    destruct SP as (same & rest & -> & I & R & SR & T).
    destruct (IH rest) with (cur := c) as (gs & TG & IG & CG & FG & EG).
    { unfold ltof. cbn [length]. rewrite app_length. exact (le_n_S _ _ (Nat.le_add_l _ _)). } { exact SR. } { exact R. }
    exists ((c, n :: same) :: gs). inversion C as [|? ? C1 C2]; subst. cbn [fst] in C1.
    split.
    + cbn [table fst]. destruct (Nat.eqb_spec c cur); [lia|]. rewrite T, TG. reflexivity.
    + split; [constructor; [|exact IG]|].
      * apply Forall_forall. intros g HG. apply in_map_iff in HG. destruct HG as (g' & <- & HG). rewrite Forall_forall in CG. exact (CG _ HG).
      * split; [constructor; [exact C1|]; eapply Forall_impl; [|exact CG]; intros g; cbn; lia|].
        split; [constructor; [split; [discriminate|exact I]|exact FG]|]. reflexivity.
Qed.
Lemma optcmp_total a b : optcmp b a = false -> a <> b -> (fst a < fst b)%nat \/ fst a = fst b /\ (snd a < snd b)%nat.
Proof.
  destruct a as (c, n), b as (c', n'). unfold optcmp. cbn [fst snd]. intros H N.
  destruct (Nat.eqb_spec c' c) as [->|E].
  - apply Nat.ltb_ge in H. right. split; [reflexivity|]. assert (n <> n') by congruence. lia.
  - apply Nat.ltb_ge in H. left. lia.
Qed.
Lemma sorted_of_contract l : NoDup l ->
  (forall i j a b, (i < j)%nat -> nth_error l i = Some a -> nth_error l j = Some b -> optcmp b a = false) -> osorted l.
Proof.
  induction l as [|a l IH]; intros ND H; [constructor|]. inversion ND; subst. constructor.
  - apply Forall_forall. intros b HB. apply optcmp_total; [|intros ->; contradiction].
    apply In_nth_error in HB. destruct HB as (j & HB). apply (H 0%nat (S j) a b); [lia|reflexivity|exact HB].
  - apply IH; [assumption|]. intros i j a' b' L A B. apply (H (S i) (S j)); [lia|exact A|exact B].
Qed.

(** ** C interface *)
Lemma take_ok {A} n (l : list A) : length l = n -> take n l = Ok l.
Proof. intros <-. unfold take. rewrite Nat.leb_refl, firstn_all. reflexivity. Qed.
Lemma opt_take_ok n p : opt_len n p -> opt_take n p = Ok p.
Proof. destruct p as [l|]; cbn [opt_take opt_len]; [|reflexivity]. intros L. rewrite take_ok by exact L. reflexivity. Qed.
Definition invalid (q : creq) : bool :=
  (Z.ltb (q_n q) 1 || Z.ltb (q_m q) 0 || isnull (q_xl q) || isnull (q_xu q) ||
      (Z.ltb 0 (q_m q) && (isnull (q_gl q) || isnull (q_gu q))) ||
      (Z.eqb (q_m q) 0 && negb (Z.eqb (q_jac q) 0)) || (Z.ltb 0 (q_m q) && Z.ltb (q_jac q) 1) || Z.ltb (q_hess q) 0 ||
      negb (q_f q) || negb (q_grad q) || (Z.ltb 0 (q_m q) && (negb (q_g q) || negb (q_jacf q))) ||
      isnull (q_vt q) || isnull (q_vl q) || (Z.ltb 0 (q_m q) && isnull (q_cl q)))%bool.
Lemma isnull_iff {A} (p : option A) : isnull p = false <-> p <> None.
Proof. destruct p; cbn; split; congruence. Qed.
Lemma invalid_iff q : invalid q = false <-> req_valid q.
Proof.
  unfold invalid, req_valid. rewrite !orb_false_iff, !andb_false_iff, !orb_false_iff, !isnull_iff, !negb_false_iff, !Z.ltb_ge, !Z.eqb_neq, !Z.eqb_eq.
  split.
  - intros (((((((((((((A & B) & C) & D) & E) & F) & G) & H) & I) & J) & K) & L) & M) & N).
    do 9 (split; [assumption|]). split; [lia|].
    intros P. destruct E as [E|(E1 & E2)]; [lia|]. destruct G as [G|G]; [lia|]. destruct K as [K|(K1 & K2)]; [lia|]. destruct N as [N|N]; [lia|].
    repeat (split; [first [assumption|lia]|]). assumption.
  - intros (A & B & C & D & E & F & G & H & I & J & K).
    assert (CS : (q_m q = 0 \/ 0 < q_m q)%Z) by lia.
    assert (K' : (q_m q <= 0)%Z \/ q_gl q <> None /\ q_gu q <> None /\ (1 <= q_jac q)%Z /\ q_g q = true /\ q_jacf q = true /\ q_cl q <> None)
      by (destruct CS; [left; lia|right; apply K; assumption]).
    assert (J' : q_m q <> 0%Z \/ q_jac q = 0%Z) by (destruct CS; [right; apply J; assumption|left; lia]).
    clear K J CS. intuition (try lia; try congruence).
Qed.
Lemma create_eq q : createProblem q = if invalid q then Ok None else createProblem q.
Proof. unfold createProblem. fold (invalid q). destruct (invalid q); reflexivity. Qed.
Lemma deref_ok {A} (p : option A) : p <> None -> exists a, p = Some a.
Proof. destruct p; [eauto|congruence]. Qed.
Lemma create_ok q : req_sizes q -> req_valid q -> exists p, createProblem q = Ok (Some p) /\
  Z.of_nat (p_n p) = q_n q /\ Z.of_nat (p_m p) = q_m q /\ p_jac p = q_jac q /\ p_hess p = q_hess q /\ p_style p = q_style q /\
  q_xl q = Some (p_xl p) /\ q_xu q = Some (p_xu p) /\ q_vt q = Some (p_vt p) /\ q_vl q = Some (p_vl p) /\ p_h p = q_h q /\
  p_os p = 1 /\ p_xs p = None /\ p_gs p = None /\
  (q_m q = 0%Z -> p_gl p = None /\ p_gu p = None) /\
  ((0 < q_m q)%Z -> p_gl p = q_gl q /\ p_gu p = q_gu q /\ q_gl q <> None /\ q_gu q <> None /\ q_cl q = Some (p_cl p)).
Proof.
  intros (S1 & S2 & S3 & S4 & S5 & S6 & S7) V. pose proof V as V0. apply invalid_iff in V0.
  unfold createProblem. fold (invalid q). rewrite V0. clear V0.
  destruct V as (N & M & X1 & X2 & HS & F & G & T1 & T2 & J & K).
  apply deref_ok in X1, X2, T1, T2. destruct X1 as (xl & X1), X2 as (xu & X2), T1 as (vt & T1), T2 as (vl & T2).
  rewrite X1, X2, T1, T2 in *. cbn [opt_len] in S1, S2, S5, S6. cbn [deref bind].
  rewrite (take_ok _ xl S1). cbn [bind]. rewrite (take_ok _ xu S2). cbn [bind].
  destruct (Z.eq_dec (q_m q) 0) as [Z0|Z1].
  - rewrite Z0. cbn [Z.to_nat Nat.ltb Nat.leb bind]. rewrite (take_ok _ vt S5). cbn [bind]. rewrite (take_ok _ vl S6). cbn [bind].
    eexists. split; [reflexivity|]. cbn [p_n p_m p_jac p_hess p_style p_xl p_xu p_vt p_vl p_os p_xs p_gs p_gl p_gu p_cl p_h].
    repeat (split; [first [reflexivity|lia]|]). split; [auto|]. intros Q0; exfalso; lia.
  - destruct K as (K1 & K2 & K3 & K4 & K5 & K6); [lia|]. apply deref_ok in K1, K2, K6.
    destruct K1 as (gl & K1), K2 as (gu & K2), K6 as (cl & K6). rewrite K1, K2, K6 in *. cbn [opt_len] in S3, S4, S7.
    assert (LT : Nat.ltb 0 (Z.to_nat (q_m q)) = true) by (apply Nat.ltb_lt; lia). rewrite LT. cbn [deref bind].
    rewrite (take_ok _ gl S3). cbn [bind]. rewrite (take_ok _ gu S4). cbn [bind].
    rewrite (take_ok _ vt S5). cbn [bind]. rewrite (take_ok _ vl S6). cbn [bind]. rewrite (take_ok _ cl S7). cbn [bind].
    eexists. split; [reflexivity|]. cbn [p_n p_m p_jac p_hess p_style p_xl p_xu p_vt p_vl p_os p_xs p_gs p_gl p_gu p_cl p_h].
    repeat (split; [first [reflexivity|lia]|]). repeat (split; [discriminate|]). reflexivity.
Qed.

(** ** Evaluation calls *)
Lemma eval_calls_ok n has_h : forall cs prev buf, (forall x, prev = Some x -> buf = Some x) -> calls_ok n has_h prev cs ->
  exists seen, eval_calls n has_h cs buf = Ok seen /\ Forall2 sees cs seen.
Proof.
  induction cs as [|c cs IH]; intros prev buf PB OK.
  - exists []. split; [reflexivity|constructor].
  - destruct OK as ((H1 & H2) & OK). cbn [eval_calls].
    assert (ST : exists b, apply_new_x n c buf = Ok b /\ (forall x, e_x c = Some x -> b = Some x) /\ (e_x c = None -> b = buf)).
    { unfold apply_new_x. destruct (e_x c) as [x|].
      - destruct H2 as (L & _ & P). destruct (e_new c).
        + rewrite (take_ok _ x L). cbn [bind]. exists (Some x). split; [reflexivity|]. split; [auto|discriminate].
        + exists buf. split; [reflexivity|]. split; [|discriminate]. intros y Ey. injection Ey as <-. apply PB, P. reflexivity.
      - destruct H2 as (N & _). rewrite N. exists buf. split; [reflexivity|]. split; [discriminate|reflexivity]. }
    destruct ST as (b & SE & SB & SN).
    assert (EV : eval_call n has_h c buf = Ok (Some b, b)).
    { unfold eval_call. destruct (e_kind c) eqn:K; try (rewrite SE; reflexivity).
      - destruct (e_x c) as [x|]; [destruct H2 as (_ & M & _); rewrite M by auto|destruct H2 as (_ & _ & M); rewrite M]; rewrite SE; reflexivity.
      - rewrite (H1 eq_refl). destruct (e_x c) as [x|]; [destruct H2 as (_ & M & _); rewrite M by auto|destruct H2 as (_ & _ & M); rewrite M]; rewrite SE; reflexivity. }
    rewrite EV. cbn [bind].
    destruct (IH (match e_x c with Some x => Some x | None => prev end) b) as (seen & ES & FS); [|exact OK|].
    { intros x Hx. destruct (e_x c) as [y|]; [apply SB; exact Hx|]. rewrite SN by reflexivity. apply PB, Hx. }
    rewrite ES. cbn [bind]. eexists. split; [reflexivity|]. constructor; [|exact FS].
    unfold sees. destruct (e_x c) as [x|]; [rewrite (SB x eq_refl); reflexivity|discriminate].
Qed.

(** ** Storage *)
Definition base (m : nat) : list blk := Binfo :: BxL :: BxU :: (if Nat.ltb 0 m then [BgL; BgU] else []) ++ [Bvt; Bvl; Bcl].
Definition mem_inv (m : nat) (c : cmem) : Prop :=
  h_live c = base m /\ h_xs c = false /\ h_gs c = false \/
  h_live c = Bxs :: base m /\ h_xs c = true /\ h_gs c = false \/
  h_live c = Bgs :: base m /\ h_xs c = false /\ h_gs c = true \/
  (h_live c = Bgs :: Bxs :: base m \/ h_live c = Bxs :: Bgs :: base m) /\ h_xs c = true /\ h_gs c = true.
Lemma mem_step m xg c : mem_inv m c -> exists c', mem_scaling xg c = Ok c' /\ mem_inv m c'.
Proof.
  destruct xg as (x, g), c as [l xs gs]. unfold mem_inv, mem_scaling. cbn [h_live h_xs h_gs].
  intros [(-> & -> & ->)|[(-> & -> & ->)|[(-> & -> & ->)|([->| ->] & -> & ->)]]]; destruct x, g; cbn; eexists; (split; [reflexivity|]); cbn; unfold base; tauto.
Qed.
Lemma mem_steps m : forall h c, mem_inv m c -> exists c', mem_scalings h c = Ok c' /\ mem_inv m c'.
Proof.
  induction h as [|a h IH]; intros c I; [exists c; split; [reflexivity|exact I]|].
  cbn [mem_scalings]. destruct (mem_step m a c I) as (c' & -> & I'). cbn [bind]. apply IH, I'.
Qed.
Lemma mem_free_ok m c : mem_inv m c -> mem_free m c = Ok (if Nat.ltb 0 m then [] else [Bcl]).
Proof.
  destruct c as [l xs gs]. unfold mem_inv, mem_free, base. cbn [h_live h_xs h_gs]. destruct (Nat.ltb 0 m);
  intros [(-> & -> & ->)|[(-> & -> & ->)|[(-> & -> & ->)|([->| ->] & -> & ->)]]]; reflexivity.
Qed.
