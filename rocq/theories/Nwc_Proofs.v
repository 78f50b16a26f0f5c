(** * Choosing among sets: proofs *)
From Coq Require Import List Arith ZArith QArith Qabs Qpower Bool Permutation Sorting.Sorted Lia Lqa.
From Verif Require Import Base Arr Nwc_Model Nwc_Spec.
Import ListNotations.
Open Scope Q_scope.

(** ** Arrays *)
Lemma rd_mid {A} (a b : list A) x i : i = length a -> rd i (a ++ x :: b) = Ok x.
Proof.
  intros ->. unfold rd. rewrite nth_error_app2 by lia. rewrite Nat.sub_diag. reflexivity.
Qed.

Lemma lset_mid {A} (a b : list A) x y i : i = length a -> lset i y (a ++ x :: b) = Ok (a ++ y :: b).
Proof.
  intros ->. rewrite lset_ok by (rewrite app_length; simpl; lia).
  rewrite firstn_app, Nat.sub_diag, firstn_all. cbn [firstn]. rewrite app_nil_r.
  do 2 f_equal. rewrite skipn_app. rewrite skipn_all2 by lia.
  replace (S (length a) - length a)%nat with 1%nat by lia. reflexivity.
Qed.

Lemma repeat_snoc {A} (x : A) n : repeat x (S n) = repeat x n ++ [x].
Proof. induction n; [reflexivity |]. change (repeat x (S (S n))) with (x :: repeat x (S n)). rewrite IHn at 1. reflexivity. Qed.

Lemma lset_some {A} (l : list A) i x : (i < length l)%nat -> exists l', lset i x l = Ok l' /\ length l' = length l.
Proof. intros H. rewrite lset_ok by exact H. eexists. split; [reflexivity |]. now apply upd_length. Qed.

Lemma rd_some {A} (l : list A) i : (i < length l)%nat -> exists x, rd i l = Ok x.
Proof.
  intros H. unfold rd. destruct (nth_error l i) eqn:E; [eauto |]. apply nth_error_None in E. lia.
Qed.

(** ** The loop *)
Definition abs := (list (nat * Q) * list nat * Z)%type.

Definition lay (onl : list (nat * Q)) (gap : nat) (oth : list nat) : list (option nat) :=
  map (fun q => Some (fst q)) onl ++ repeat None gap ++ map Some oth.

Lemma flush_none : forall g A B u put,
  flush (length A + g) (A ++ repeat None g ++ B) u put = flush (length A) (A ++ repeat None g ++ B) u put.
Proof.
  intros g A B u put.
  assert (G : forall h, (h <= g)%nat ->
    flush (length A + h) (A ++ repeat None g ++ B) u put = flush (length A) (A ++ repeat None g ++ B) u put).
  { induction h as [| h IH]; intros H; [now rewrite Nat.add_0_r |].
    rewrite Nat.add_succ_r. cbn [flush].
    replace g with (h + S (g - S h))%nat at 1 by lia.
    rewrite repeat_app. cbn [repeat]. rewrite <- app_assoc. cbn [app].
    rewrite app_assoc. rewrite rd_mid by (rewrite app_length, repeat_length; lia).
    cbn [bind]. apply IH. lia. }
  apply G. lia.
Qed.

Lemma flush_none' k g A B u put : k = length A ->
  flush (k + g) (A ++ repeat None g ++ B) u put = flush k (A ++ repeat None g ++ B) u put.
Proof. intros ->. apply flush_none. Qed.

Lemma flush_entries : forall onl g B u,
  (length onl <= length u)%nat ->
  exists u', flush (length onl) (map (fun q : nat * Q => Some (fst q)) onl ++ repeat None g ++ B) u (length onl + g)
  = Ok (repeat None g ++ map (fun q => Some (fst q)) onl ++ B, u', g) /\ length u' = length u.
Proof.
  intros onl. induction onl as [| [o v] onl IH] using rev_ind; intros g B u L.
  - exists u. split; reflexivity.
  - rewrite app_length in *. cbn [length] in *. rewrite Nat.add_1_r in *. cbn [flush].
    rewrite map_app. cbn [map fst]. rewrite <- app_assoc. cbn [app].
    rewrite rd_mid by (rewrite map_length; lia). cbn [bind].
    rewrite lset_mid by (rewrite map_length; lia). cbn [bind].
    destruct (lset_some u (length onl) 0 ltac:(lia)) as (u1 & E1 & L1). rewrite E1. cbn [bind].
    cbn [Nat.add].
    replace (map (fun q : nat * Q => Some (fst q)) onl ++ None :: repeat None g ++ B)
      with ((map (fun q : nat * Q => Some (fst q)) onl ++ repeat None g) ++ None :: B).
    2:{ rewrite <- app_assoc. f_equal. change (None :: repeat None g ++ B) with ((repeat (@None nat) (S g)) ++ B).
        rewrite repeat_snoc, <- app_assoc. reflexivity. }
    rewrite lset_mid by (rewrite app_length, map_length, repeat_length; reflexivity). cbn [bind].
    rewrite <- app_assoc.
    destruct (IH g (Some o :: B) u1 ltac:(lia)) as (u' & E & L'). exists u'. rewrite E.
    split; [| lia]. f_equal. f_equal. f_equal. rewrite <- app_assoc. reflexivity.
Qed.

Lemma worst_gap : forall (onl2 onl1 : list (nat * Q)) n R u ck ci,
  (length onl2 < n)%nat -> (length onl1 + length onl2 <= length u)%nat ->
  worst n (length onl1)
    (map (fun q => Some (fst q)) (onl1 ++ onl2) ++ None :: R) u ck ci
  = Ok (Fin 0, (length onl1 + length onl2)%nat).
Proof.
  induction onl2 as [| [o v] onl2 IH]; intros onl1 n R u ck ci L U.
  - destruct n as [| n]; [simpl in L; lia |]. cbn [worst]. rewrite app_nil_r.
    rewrite rd_mid by (now rewrite map_length). cbn [bind]. cbn [length]. now rewrite Nat.add_0_r.
  - destruct n as [| n]; [simpl in L; lia |]. cbn [worst length] in *.
    assert (E : rd (length onl1) (map (fun q : nat * Q => Some (fst q)) (onl1 ++ (o, v) :: onl2) ++ None :: R) = Ok (Some o)).
    { rewrite map_app, <- app_assoc. cbn [map app fst]. now rewrite rd_mid by (now rewrite map_length). }
    rewrite E. cbn [bind].
    destruct (rd_some u (length onl1) ltac:(lia)) as (w & W). rewrite W. cbn [bind].
    assert (X : forall ck ci, worst n (S (length onl1)) (map (fun q : nat * Q => Some (fst q)) (onl1 ++ (o, v) :: onl2) ++ None :: R) u ck ci
       = Ok (Fin 0, (length onl1 + S (length onl2))%nat)).
    { intros ck' ci'. replace (onl1 ++ (o, v) :: onl2) with ((onl1 ++ [(o, v)]) ++ onl2) by (now rewrite <- app_assoc).
      replace (S (length onl1)) with (length (onl1 ++ [(o, v)])) by (rewrite app_length; simpl; lia).
      rewrite IH; [| lia | rewrite app_length; simpl; lia].
      f_equal. f_equal. rewrite app_length. simpl. lia. }
    destruct (match ck with MInf => false | Fin c => Qltb w c | PInf => true end); apply X.
Qed.

Lemma worst_ok : forall n j l u ck ci, (j + n <= length l)%nat -> (j + n <= length u)%nat ->
  exists r, worst n j l u ck ci = Ok r.
Proof.
  induction n as [| n IH]; intros j l u ck ci L U; [eexists; reflexivity |].
  cbn [worst]. destruct (rd_some l j ltac:(lia)) as (e & ->). cbn [bind].
  destruct e as [o |]; [| eexists; reflexivity].
  destruct (rd_some u j ltac:(lia)) as (w & ->). cbn [bind].
  destruct (match ck with MInf => false | Fin c => Qltb w c | PInf => true end); apply IH; lia.
Qed.

Definition rel (n : nat) (a : abs) (s : st) : Prop :=
  let '(onl, oth, bp) := a in
  (length onl + length oth <= n)%nat /\
  s_list s = lay onl (n - length onl - length oth) oth /\
  (exists rest, s_use s = map snd onl ++ rest) /\ length (s_use s) = n /\
  s_put s = (n - length oth)%nat /\ s_max s = s_put s /\
  (onl = [] -> s_check s = MInf /\ s_ci s = O) /\
  (onl <> [] -> (length onl + length oth < n)%nat -> s_check s = Fin 0 /\ s_ci s = length onl) /\
  s_prio s = bp /\ s_uns s = (length onl + length oth)%nat.

Definition astep (root : bool) (start i : nat) (c : cand) (a : abs) : abs :=
  let '(onl, oth, bp) := a in
  let o := (i + start)%nat in
  let v := value root c in
  if Qltb 0 (c_inf c) then
    if Z.ltb (c_prio c) bp then ([(o, v)], map fst onl ++ oth, c_prio c)
    else if Z.eqb (c_prio c) bp then
      if (match onl with [] => true | _ => false end || Qltb 0 v)%bool
      then (onl ++ [(o, v)], oth, bp) else (onl, o :: oth, bp)
    else (onl, o :: oth, bp)
  else a.

Lemma lay_length onl g oth : length (lay onl g oth) = (length onl + g + length oth)%nat.
Proof. unfold lay. rewrite !app_length, !map_length, repeat_length. lia. Qed.

Lemma to_end_lay o onl g oth put :
  put = (length onl + S g)%nat ->
  to_end o (lay onl (S g) oth) put = Ok (lay onl g (o :: oth), (length onl + g)%nat).
Proof.
  intros ->. rewrite Nat.add_succ_r. unfold to_end, lay.
  rewrite repeat_snoc, <- app_assoc. cbn [app]. rewrite (app_assoc (map _ onl)).
  rewrite rd_mid by (rewrite app_length, map_length, repeat_length; reflexivity). cbn [bind empty chk].
  rewrite lset_mid by (rewrite app_length, map_length, repeat_length; reflexivity). cbn [bind].
  rewrite <- app_assoc. reflexivity.
Qed.

Ltac ten := refine (conj _ (conj _ (conj _ (conj _ (conj _ (conj _ (conj _ (conj _ (conj _ _))))))))).

(** A new candidate with a free slot at the position to be filled. *)
Lemma enter_in o v s n onl oth bp :
  (length onl + length oth < n)%nat ->
  s_list s = lay onl (n - length onl - length oth) oth ->
  (exists rest, s_use s = map snd onl ++ rest) -> length (s_use s) = n ->
  s_put s = (n - length oth)%nat -> (s_put s <= s_max s)%nat ->
  s_ci s = length onl -> s_prio s = bp -> s_uns s = (S (length onl + length oth))%nat ->
  match s_check s with MInf => true | Fin c => Qltb c v | PInf => false end = true ->
  exists s', enter o v s = Ok s' /\ rel n (onl ++ [(o, v)], oth, bp) s'.
Proof.
  intros L El (rest & Eu) Lu Ep Em Ec Eb En Ck.
  unfold enter. rewrite Ck, Ec.
  destruct (n - length onl - length oth)%nat as [| g] eqn:G; [lia |].
  assert (E0 : s_list s = map (fun q => Some (fst q)) onl ++ None :: repeat None g ++ map Some oth) by exact El.
  rewrite E0. rewrite rd_mid by (now rewrite map_length). cbn [bind].
  rewrite lset_mid by (now rewrite map_length). cbn [bind].
  assert (T : Nat.ltb (length onl) (s_put s) = true) by (apply Nat.ltb_lt; lia).
  rewrite T. cbn [chk bind].
  assert (R : exists y rest', rest = y :: rest').
  { destruct rest as [| y rest']; [| eauto]. rewrite Eu, app_nil_r, map_length in Lu. lia. }
  destruct R as (y & rest' & ->). rewrite Eu. rewrite lset_mid by (now rewrite map_length). cbn [bind].
  rewrite Nat.min_r by exact Em.
  set (u1 := map snd onl ++ v :: rest').
  assert (Lu1 : length u1 = n).
  { unfold u1. rewrite app_length in *. cbn [length]. rewrite Eu, app_length in Lu. cbn [length] in Lu. exact Lu. }
  assert (EL : map (fun q : nat * Q => Some (fst q)) onl ++ Some o :: repeat None g ++ map Some oth
             = lay (onl ++ [(o, v)]) g oth).
  { unfold lay. rewrite map_app, <- app_assoc. reflexivity. }
  rewrite EL.
  assert (LL : length (lay (onl ++ [(o, v)]) g oth) = n).
  { rewrite lay_length, app_length. cbn [length]. lia. }
  destruct (worst_ok (s_put s) 0 (lay (onl ++ [(o, v)]) g oth) u1 PInf (length onl)) as ([ck ci] & W); [lia | lia |].
  rewrite W. cbn [bind]. eexists. split; [reflexivity |].
  unfold rel. cbn [s_list s_use s_put s_max s_check s_ci s_prio s_uns].
  rewrite app_length. cbn [length].
  ten.
  - lia.
  - f_equal. lia.
  - exists rest'. unfold u1. rewrite map_app, <- app_assoc. reflexivity.
  - exact Lu1.
  - exact Ep.
  - reflexivity.
  - intros X. exfalso. now apply app_eq_nil in X as [_ X].
  - intros _ X. pose proof (worst_gap (onl ++ [(o, v)]) [] (s_put s)) as WG.
    destruct g as [| g]; [lia |].
    specialize (WG (repeat None g ++ map Some oth) u1 PInf (length onl)).
    rewrite app_length in WG. cbn [length app Nat.add] in WG. unfold lay in W. cbn [repeat app] in W.
    rewrite WG in W by lia. injection W as <- <-. split; reflexivity.
  - exact Eb.
  - lia.
Qed.

Lemma step_rel root start i c n a s :
  rel n a s -> (s_uns s < n)%nat ->
  exists s', step root start i c s = Ok s' /\ rel n (astep root start i c a) s'.
Proof.
  destruct a as [[onl oth] bp]. intros R U. pose proof R as R0.
  destruct R as (L & El & Eu & Lu & Ep & Em & E0 & E1 & Eb & En).
  unfold step, astep. destruct (Qltb 0 (c_inf c)); [| eexists; split; [reflexivity | exact R0]].
  cbv zeta. cbn [s_prio s_max s_list s_use s_put s_check s_ci s_uns]. rewrite Eb.
  assert (Gp : exists g, (n - length onl - length oth)%nat = S g) by (exists (n - length onl - length oth - 1)%nat; lia).
  destruct Gp as (g & G).
  destruct (c_prio c <? bp)%Z eqn:P.
  - (* flush *)
    destruct (flush_entries onl (n - length onl - length oth) (map Some oth) (s_use s) ltac:(lia)) as (u' & F & Lu').
    assert (F1 : flush (s_max s) (s_list s) (s_use s) (s_put s)
      = Ok (repeat None (n - length onl - length oth) ++ map (fun q => Some (fst q)) onl ++ map Some oth, u',
            (n - length onl - length oth)%nat)).
    { rewrite Em, Ep, El, <- F. unfold lay.
      replace (n - length oth)%nat with (length onl + (n - length onl - length oth))%nat by lia.
      apply flush_none'. now rewrite map_length. }
    rewrite F1. cbn [bind].
    cbn [s_prio]. rewrite Z.eqb_refl.
    destruct (enter_in (i + start) (value root c)
      (St (repeat None (n - length onl - length oth) ++ map (fun q : nat * Q => Some (fst q)) onl ++ map Some oth)
          u' (n - length onl - length oth) (s_max s) MInf 0 (c_prio c) (S (s_uns s)))
      n [] (map fst onl ++ oth) (c_prio c)) as (s' & E & R');
      cbn [s_prio s_max s_list s_use s_put s_check s_ci s_uns length app];
      [rewrite app_length, map_length; lia | | exists u'; reflexivity | lia
      | rewrite app_length, map_length; lia | lia | reflexivity | reflexivity
      | rewrite app_length, map_length; lia | reflexivity |].
    + unfold lay. cbn [map app length]. rewrite map_app, map_map, app_length, map_length. f_equal. f_equal. lia.
    + rewrite E. exists s'. split; [reflexivity | exact R'].
  - cbn [bind]. cbn [s_prio].
    destruct (Z.eqb_spec (c_prio c) bp) as [Q1 | Q1].
    + destruct onl as [| q onl].
      * destruct (E0 eq_refl) as [Ck Ci]. rewrite Ck, Ci. cbn [orb].
        destruct (enter_in (i + start) (value root c)
          (St (s_list s) (s_use s) (s_put s) (s_max s) MInf 0 bp (S (s_uns s))) n [] oth bp) as (s' & E & R');
          cbn [s_prio s_max s_list s_use s_put s_check s_ci s_uns length]; auto; try lia;
          try (cbn [length] in *; lia).
        rewrite E. exists s'. split; [reflexivity | exact R'].
      * destruct (E1 ltac:(discriminate) ltac:(lia)) as [Ck Ci]. cbn [orb].
        destruct (Qltb 0 (value root c)) eqn:V.
        -- destruct (enter_in (i + start) (value root c)
             (St (s_list s) (s_use s) (s_put s) (s_max s) (s_check s) (s_ci s) bp (S (s_uns s))) n (q :: onl) oth bp) as (s' & E & R');
             cbn [s_prio s_max s_list s_use s_put s_check s_ci s_uns]; auto; try lia.
           { rewrite Ck. exact V. }
           rewrite E. exists s'. split; [reflexivity | exact R'].
        -- unfold enter. cbn [s_prio s_max s_list s_use s_put s_check s_ci s_uns]. rewrite Ck, V, El, G.
           rewrite to_end_lay by lia. cbn [bind]. eexists. split; [reflexivity |].
           unfold rel. cbn [s_prio s_max s_list s_use s_put s_check s_ci s_uns].
           ten; auto; try (cbn [length] in *; lia); try discriminate.
           ++ f_equal. cbn [length] in *. lia.
    + cbn [s_prio s_max s_list s_use s_put s_check s_ci s_uns]. rewrite El, G. rewrite to_end_lay by lia. cbn [bind]. eexists. split; [reflexivity |].
      unfold rel. cbn [s_prio s_max s_list s_use s_put s_check s_ci s_uns].
      ten; auto; try (cbn [length] in *; lia).
      * f_equal. cbn [length] in *. lia.
      * intros X Y. apply E1; [exact X | cbn [length] in *; lia].
Qed.

Fixpoint aloop (root : bool) (start i : nat) (cs : list cand) (a : abs) : abs :=
  match cs with
  | [] => a
  | c :: cs => aloop root start (S i) cs (astep root start i c a)
  end.

Definition asize (a : abs) : nat := let '(onl, oth, _) := a in (length onl + length oth)%nat.

Lemma rel_uns n a s : rel n a s -> s_uns s = asize a.
Proof. destruct a as [[onl oth] bp]. intros R. apply R. Qed.

Lemma astep_size root start i c a : (asize (astep root start i c a) <= S (asize a))%nat.
Proof.
  destruct a as [[onl oth] bp]. unfold astep, asize. destruct (Qltb 0 (c_inf c)); [| lia].
  destruct (c_prio c <? bp)%Z; [rewrite app_length, map_length; simpl; lia |].
  destruct (c_prio c =? bp)%Z; [| simpl; lia].
  destruct (_ || _)%bool; [rewrite app_length; simpl; lia | simpl; lia].
Qed.

Lemma loop_rel root start n : forall cs i a s,
  rel n a s -> (asize a + length cs <= n)%nat ->
  exists s', loop root start i cs s = Ok s' /\ rel n (aloop root start i cs a) s'.
Proof.
  induction cs as [| c cs IH]; intros i a s R L; [eexists; split; [reflexivity | exact R] |].
  cbn [loop aloop length] in *.
  destruct (step_rel root start i c n a s R) as (s1 & E & R1); [rewrite (rel_uns _ _ _ R); lia |].
  rewrite E. cbn [bind]. apply IH; [exact R1 |]. pose proof (astep_size root start i c a). lia.
Qed.

(** ** What the abstract loop keeps *)
Lemma isset_snoc start pre c0 o c :
  isset start (pre ++ [c0]) o c <-> isset start pre o c \/ (o = length pre + start /\ c = c0)%nat.
Proof.
  unfold isset. split.
  - intros [L E]. destruct (Nat.lt_ge_cases (o - start) (length pre)) as [H | H].
    + left. rewrite nth_error_app1 in E by exact H. auto.
    + right. rewrite nth_error_app2 in E by exact H.
      destruct (o - start - length pre)%nat as [| k] eqn:K.
      * cbn in E. injection E as <-. split; [lia | reflexivity].
      * cbn in E. destruct k; discriminate E.
  - intros [[L E] | [-> ->]].
    + split; [exact L |]. rewrite nth_error_app1; [exact E |]. apply nth_error_Some. congruence.
    + split; [lia |]. replace (length pre + start - start)%nat with (length pre) by lia.
      rewrite nth_error_app2 by lia. rewrite Nat.sub_diag. reflexivity.
Qed.

Lemma isset_lt start pre o c : isset start pre o c -> (o < length pre + start)%nat.
Proof. intros [L E]. assert (H : nth_error pre (o - start) <> None) by congruence. apply nth_error_Some in H. lia. Qed.

Lemma unsat_snoc start pre c0 o :
  unsat start (pre ++ [c0]) o <-> unsat start pre o \/ (o = (length pre + start)%nat /\ 0 < c_inf c0).
Proof.
  unfold unsat. split.
  - intros (c & S1 & P). apply isset_snoc in S1. destruct S1 as [S1 | [-> ->]]; [left; eauto | right; auto].
  - intros [(c & S1 & P) | [-> P]].
    + exists c. split; [apply isset_snoc; auto | exact P].
    + exists c0. split; [apply isset_snoc; auto | exact P].
Qed.

Lemma isset_fun start pre o c c' : isset start pre o c -> isset start pre o c' -> c = c'.
Proof. intros [_ A] [_ B]. congruence. Qed.

Definition Inv (root : bool) (start : nat) (pre : list cand) (a : abs) : Prop :=
  let '(onl, oth, bp) := a in
  NoDup (map fst onl ++ oth) /\
  (forall o, In o (map fst onl ++ oth) <-> unsat start pre o) /\
  (forall o v, In (o, v) onl -> exists c, isset start pre o c /\ v = value root c /\ c_prio c = bp) /\
  (forall c, In c pre -> 0 < c_inf c -> (bp <= c_prio c)%Z) /\
  (onl = [] -> oth = [] /\ bp = 2147483647%Z) /\
  (forall o c, In o oth -> isset start pre o c -> c_prio c = bp -> value root c <= 0).

Lemma inv_step root start pre c a :
  (c_prio c <= 2147483647)%Z -> Inv root start pre a ->
  Inv root start (pre ++ [c]) (astep root start (length pre) c a).
Proof.
  destruct a as [[onl oth] bp]. intros Pc (Nd & Mem & On & Mn & Em & Ot).
  assert (Fresh : ~ In (length pre + start)%nat (map fst onl ++ oth)).
  { intros X. apply Mem in X. destruct X as (d & S1 & _). apply isset_lt in S1. lia. }
  assert (MnC : forall b, (b <= bp)%Z -> (0 < c_inf c -> (b <= c_prio c)%Z) ->
     forall d, In d (pre ++ [c]) -> 0 < c_inf d -> (b <= c_prio d)%Z).
  { intros b B1 B2 d D P. apply in_app_or in D. destruct D as [D | [<- | []]]; [| now apply B2].
    pose proof (Mn d D P). lia. }
  assert (NotOth : forall o d, In o (map fst onl ++ oth) -> isset start (pre ++ [c]) o d -> isset start pre o d).
  { intros o d O S1. apply isset_snoc in S1. destruct S1 as [S1 | [-> _]]; [exact S1 | now destruct (Fresh O)]. }
  unfold astep. destruct (Qltb 0 (c_inf c)) eqn:P.
  - apply Qltb_lt in P.
    assert (MemC : forall l, (forall o, In o l <-> In o (map fst onl ++ oth) \/ o = (length pre + start)%nat) ->
       forall o, In o l <-> unsat start (pre ++ [c]) o).
    { intros l Hl o. rewrite Hl, unsat_snoc, Mem. intuition. }
    destruct (Z.ltb_spec (c_prio c) bp) as [L | L].
    + unfold Inv. cbn [map fst app]. repeat apply conj.
      * constructor; [exact Fresh | exact Nd].
      * apply MemC. intros o. cbn. intuition.
      * intros o v [X | []]. injection X as <- <-. exists c. split; [apply isset_snoc; auto | auto].
      * apply MnC; [lia | intros _; lia].
      * discriminate.
      * intros o d O S1 Pd. exfalso. apply NotOth in S1; [| exact O].
        assert (I1 : In d pre) by (destruct S1 as [_ S1]; eapply nth_error_In; eauto).
        apply Mem in O. destruct O as (d' & S2 & P2).
        rewrite (isset_fun _ _ _ _ _ S1 S2) in *.
        assert (In d' pre) by (destruct S2 as [_ S2]; eapply nth_error_In; eauto).
        pose proof (Mn d' ltac:(assumption) P2). lia.
    + destruct (Z.eqb_spec (c_prio c) bp) as [E | E].
      * destruct (match onl with [] => true | _ => false end || Qltb 0 (value root c))%bool eqn:W.
        -- unfold Inv. rewrite map_app. cbn [map fst]. repeat apply conj.
           ++ apply (Permutation_NoDup (l := (length pre + start)%nat :: map fst onl ++ oth)); [| constructor; auto].
              rewrite <- app_assoc. cbn [app]. apply Permutation_middle.
           ++ apply MemC. intros o. rewrite <- app_assoc. cbn [app]. rewrite !in_app_iff. cbn. intuition.
           ++ intros o v X. apply in_app_or in X. destruct X as [X | [X | []]].
              ** destruct (On o v X) as (d & S1 & V & Pd). exists d. split; [apply isset_snoc; auto | auto].
              ** injection X as <- <-. exists c. split; [apply isset_snoc; auto | auto].
           ++ apply MnC; [lia | intros _; lia].
           ++ intros X. now apply app_eq_nil in X as [_ X].
           ++ intros o d O S1 Pd. apply (Ot o d O); [| exact Pd]. apply NotOth in S1; [exact S1 |].
              apply in_or_app. now right.
        -- apply orb_false_iff in W. destruct W as [W1 W2].
           unfold Inv. repeat apply conj.
           ++ apply (Permutation_NoDup (l := (length pre + start)%nat :: map fst onl ++ oth)); [| constructor; auto].
              apply Permutation_middle.
           ++ apply MemC. intros o. rewrite !in_app_iff. cbn. intuition.
           ++ intros o v X. destruct (On o v X) as (d & S1 & V & Pd). exists d. split; [apply isset_snoc; auto | auto].
           ++ apply MnC; [lia | intros _; lia].
           ++ intros ->. discriminate W1.
           ++ intros o d [<- | O] S1 Pd.
              ** apply isset_snoc in S1. destruct S1 as [S1 | [_ ->]]; [apply isset_lt in S1; lia |].
                 now apply Qltb_ge in W2.
              ** apply (Ot o d O); [| exact Pd]. apply NotOth in S1; [exact S1 |]. apply in_or_app. now right.
      * unfold Inv. repeat apply conj.
        -- apply (Permutation_NoDup (l := (length pre + start)%nat :: map fst onl ++ oth)); [| constructor; auto].
           apply Permutation_middle.
        -- apply MemC. intros o. rewrite !in_app_iff. cbn. intuition.
        -- intros o v X. destruct (On o v X) as (d & S1 & V & Pd). exists d. split; [apply isset_snoc; auto | auto].
        -- apply MnC; [lia | intros _; lia].
        -- intros X. destruct (Em X) as [_ X2]. exfalso. lia.
        -- intros o d [<- | O] S1 Pd.
           ++ apply isset_snoc in S1. destruct S1 as [S1 | [_ ->]]; [apply isset_lt in S1; lia | congruence].
           ++ apply (Ot o d O); [| exact Pd]. apply NotOth in S1; [exact S1 |]. apply in_or_app. now right.
  - apply Qltb_ge in P. unfold Inv. repeat apply conj.
    + exact Nd.
    + intros o. rewrite unsat_snoc, Mem. split; [auto |]. intros [X | [_ X]]; [exact X | exfalso; lra].
    + intros o v X. destruct (On o v X) as (d & S1 & V & Pd). exists d. split; [apply isset_snoc; auto | auto].
    + apply MnC; [lia |]. intros X. exfalso. lra.
    + exact Em.
    + intros o d O S1 Pd. apply (Ot o d O); [| exact Pd]. apply NotOth in S1; [exact S1 |].
      apply in_or_app. now right.
Qed.

Lemma inv_loop root start : forall cs pre a, prios cs -> Inv root start pre a ->
  Inv root start (pre ++ cs) (aloop root start (length pre) cs a).
Proof.
  induction cs as [| c cs IH]; intros pre a P I1; [now rewrite app_nil_r |].
  inversion P as [| ? ? P1 P2]; subst. cbn [aloop].
  replace (pre ++ c :: cs) with ((pre ++ [c]) ++ cs) by (now rewrite <- app_assoc).
  replace (S (length pre)) with (length (pre ++ [c])) by (rewrite app_length; simpl; lia).
  apply IH; [exact P2 |]. now apply inv_step.
Qed.

Lemma inv_init root start : Inv root start [] ([], [], 2147483647%Z).
Proof.
  unfold Inv. repeat apply conj; try (intros; contradiction).
  - constructor.
  - intros o. split; [intros [] |]. intros (c & [_ E] & _). destruct (o - start)%nat; discriminate E.
  - auto.
Qed.

(** ** After the loop *)
Lemma compact_on : forall (onl2 onl1 : list (nat * Q)) n R rest,
  compact (length onl2 + n) (length onl1) (length onl1)
    (map (fun q => Some (fst q)) (onl1 ++ onl2) ++ R)
    (map (fun q => - snd q) onl1 ++ map snd onl2 ++ rest)
  = compact n (length onl1 + length onl2) (length onl1 + length onl2)
    (map (fun q => Some (fst q)) (onl1 ++ onl2) ++ R)
    (map (fun q => - snd q) (onl1 ++ onl2) ++ rest).
Proof.
  induction onl2 as [| [o v] onl2 IH]; intros onl1 n R rest.
  - cbn [length map app Nat.add]. rewrite Nat.add_0_r, app_nil_r. reflexivity.
  - cbn [length Nat.add compact].
    assert (E : map (fun q : nat * Q => Some (fst q)) (onl1 ++ (o, v) :: onl2) ++ R
      = map (fun q => Some (fst q)) onl1 ++ Some o :: (map (fun q => Some (fst q)) onl2 ++ R)).
    { rewrite map_app, <- app_assoc. reflexivity. }
    rewrite E. rewrite rd_mid by (now rewrite map_length). cbn [bind].
    rewrite lset_mid by (now rewrite map_length). cbn [bind map app snd].
    rewrite rd_mid by (now rewrite map_length). cbn [bind].
    rewrite lset_mid by (now rewrite map_length). cbn [bind]. rewrite <- E.
    specialize (IH (onl1 ++ [(o, v)]) n R rest).
    rewrite app_length in IH. cbn [length] in IH. rewrite Nat.add_1_r in IH.
    rewrite <- app_assoc in IH. cbn [app] in IH.
    rewrite (map_app (fun q : nat * Q => - snd q) onl1 [(o, v)]) in IH. cbn [map snd] in IH.
    rewrite <- app_assoc in IH. cbn [app] in IH. rewrite IH.
    replace (S (length onl1) + length onl2)%nat with (length onl1 + S (length onl2))%nat by lia. reflexivity.
Qed.

Lemma compact_none : forall g i k A B u, i = length A ->
  compact g i k (A ++ repeat None g ++ B) u = Ok (A ++ repeat None g ++ B, u, k).
Proof.
  induction g as [| g IH]; intros i k A B u ->; [reflexivity |].
  cbn [compact repeat app]. rewrite rd_mid by reflexivity. cbn [bind].
  specialize (IH (S (length A)) k (A ++ [None]) B u). rewrite app_length in IH. cbn [length] in IH.
  rewrite <- app_assoc in IH. cbn [app] in IH. apply IH. lia.
Qed.

Lemma moves_spec : forall (oth : list nat) X G i put, i = length X -> put = (length X + length G)%nat ->
  exists T, moves (length oth) i put (X ++ G ++ map Some oth)
  = Ok (X ++ map Some oth ++ T, (i + length oth)%nat).
Proof.
  induction oth as [| o oth IH]; intros X G i put -> ->.
  - exists G. cbn. rewrite app_nil_r, Nat.add_0_r. reflexivity.
  - cbn [length moves map]. rewrite (app_assoc X G). rewrite rd_mid by (now rewrite app_length). cbn [bind].
    rewrite <- app_assoc.
    assert (Go : forall Y H, length Y = S (length X) -> (length Y + length H)%nat = S (length X + length G) ->
      Y = X ++ [Some o] -> exists T, moves (length oth) (S (length X)) (S (length X + length G)) (Y ++ H ++ map Some oth)
      = Ok (X ++ (Some o :: map Some oth) ++ T, (length X + S (length oth))%nat)).
    { intros Y H L1 L2 ->. destruct (IH (X ++ [Some o]) H (S (length X)) (S (length X + length G))) as (T & E); [lia | lia |].
      exists T. rewrite E. rewrite <- app_assoc. f_equal. f_equal. lia. }
    destruct G as [| g0 G].
    + cbn [app]. rewrite lset_mid by reflexivity. cbn [bind].
      replace (X ++ Some o :: map Some oth) with ((X ++ [Some o]) ++ [] ++ map Some oth) by (now rewrite <- app_assoc).
      apply Go; [rewrite app_length; simpl; lia | rewrite app_length; simpl; lia | reflexivity].
    + cbn [app]. rewrite lset_mid by reflexivity. cbn [bind].
      replace (X ++ Some o :: G ++ Some o :: map Some oth) with ((X ++ [Some o]) ++ (G ++ [Some o]) ++ map Some oth)
        by (now rewrite <- !app_assoc).
      apply Go; [rewrite app_length; simpl; lia | rewrite !app_length; simpl; lia | reflexivity].
Qed.

Definition negs (onl : list (nat * Q)) : list (Q * nat) := map (fun q => (- snd q, fst q)) onl.

Lemma combine_negs (onl : list (nat * Q)) :
  combine (map (fun q => - snd q) onl) (map fst onl) = negs onl.
Proof. induction onl as [| [o v] onl IH]; [reflexivity |]. cbn. now rewrite IH. Qed.

Lemma firstn_exact {A} (a b : list A) k : k = length a -> firstn k (a ++ b) = a.
Proof. intros ->. rewrite firstn_app, Nat.sub_diag, firstn_all. apply app_nil_r. Qed.

Lemma skipn_exact {A} (a b : list A) k : k = length a -> skipn k (a ++ b) = b.
Proof. intros ->. rewrite skipn_app, Nat.sub_diag, skipn_all. reflexivity. Qed.

Theorem setup_spec srt root strong start cs :
  sorter srt -> prios cs ->
  exists onl oth bp r T,
    Inv root start cs (onl, oth, bp) /\ setup srt root strong start cs = Ok r /\
    r_uns r = (length onl + length oth)%nat /\
    r_on r = (if strong then length onl else O) /\
    r_list r = map Some (map snd (srt (negs onl)) ++ oth) ++ T.
Proof.
  intros Sr Pr. unfold setup. cbv zeta.
  assert (R0 : rel (length cs) ([], [], 2147483647%Z)
    (St (repeat None (length cs)) (repeat 0 (length cs)) (length cs) (length cs) MInf 0 2147483647 0)).
  { unfold rel. cbn [s_prio s_max s_list s_use s_put s_check s_ci s_uns length]. ten; auto; try lia.
    - unfold lay. cbn [map app]. rewrite !Nat.sub_0_r, app_nil_r. reflexivity.
    - eexists. reflexivity.
    - apply repeat_length.
    - intros X. now destruct X. }
  destruct (loop_rel root start (length cs) cs 0 _ _ R0) as (s & E & R); [cbn; lia |].
  rewrite E. cbn [bind].
  pose proof (inv_loop root start cs [] _ Pr (inv_init root start)) as I1. cbn [length app] in I1.
  destruct (aloop root start 0 cs ([], [], 2147483647%Z)) as [[onl oth] bp].
  destruct R as (L & El & (rest & Eu) & Lu & Ep & Em & _ & _ & _ & En).
  exists onl, oth, bp. rewrite Em, Nat.min_id.
  assert (C : compact (s_put s) 0 0 (s_list s) (s_use s)
    = Ok (lay onl (length cs - length onl - length oth) oth, map (fun q => - snd q) onl ++ rest, length onl)).
  { rewrite Ep, El, Eu. unfold lay.
    replace (length cs - length oth)%nat with (length onl + (length cs - length onl - length oth))%nat by lia.
    pose proof (compact_on onl [] (length cs - length onl - length oth)
      (repeat None (length cs - length onl - length oth) ++ map Some oth) rest) as K.
    cbn [length app map Nat.add] in K. rewrite K. apply compact_none. now rewrite map_length. }
  rewrite C. cbn [bind].
  destruct (Sr (negs onl)) as [Sp _].
  destruct onl as [| q onl].
  - destruct I1 as (I1 & I2 & I3 & I4 & I5 & I6). destruct (I5 eq_refl) as [-> Hb]. cbn [length].
    eexists. exists (repeat None (length cs)). split; [repeat apply conj; auto |].
    split; [reflexivity |]. cbn [r_uns r_on r_list]. rewrite En. cbn [length]. split; [reflexivity |].
    split; [now destruct strong |].
    assert (N0 : srt (negs []) = []) by (apply Permutation_nil, Permutation_sym, Sp). rewrite N0.
    unfold lay. cbn [map app length]. rewrite !Nat.sub_0_r, app_nil_r. reflexivity.
  - cbn [length] in *. set (k := S (length onl)) in *.
    assert (K : k = length (q :: onl)) by reflexivity.
    unfold lay. rewrite (firstn_exact (map (fun q => - snd q) (q :: onl))) by (now rewrite map_length).
    rewrite (firstn_exact (map (fun q => Some (fst q)) (q :: onl))) by (now rewrite map_length).
    rewrite (skipn_exact (map (fun q => Some (fst q)) (q :: onl))) by (now rewrite map_length).
    rewrite map_map. cbn beta iota. rewrite combine_negs.
    assert (Lp : length (srt (negs (q :: onl))) = k).
    { rewrite (Permutation_length Sp). unfold negs. now rewrite map_length. }
    replace (length cs - s_put s)%nat with (length oth) by lia.
    destruct (moves_spec oth (map (fun q0 : Q * nat => Some (snd q0)) (srt (negs (q :: onl))))
      (repeat None (length cs - k - length oth)) k (s_put s)) as (T & M);
      [rewrite map_length; lia | rewrite map_length, repeat_length; lia |].
    rewrite M. cbn [bind]. rewrite En, Nat.eqb_refl. cbn [chk bind].
    eexists. exists T. split; [exact I1 |]. split; [reflexivity |]. cbn [r_uns r_on r_list].
    split; [reflexivity |]. split; [reflexivity |].
    rewrite map_app, map_map, <- app_assoc. reflexivity.
Qed.

(** ** Usefulness *)
Lemma smin_spec a b : (b < a /\ smin a b = b) \/ (a <= b /\ smin a b = a).
Proof. unfold smin. destruct (Qltb b a) eqn:E; [left; apply Qltb_lt in E | right; apply Qltb_ge in E]; auto. Qed.
Lemma smax_spec a b : (a < b /\ smax a b = b) \/ (b <= a /\ smax a b = a).
Proof. unfold smax. destruct (Qltb a b) eqn:E; [left; apply Qltb_lt in E | right; apply Qltb_ge in E]; auto. Qed.

Definition score (cut obj : Q) (m : memb) : Q :=
  smin (cut - obj) (smax ((m_up m - m_x m) * m_unit m) (m_bnd m - obj)).

Lemma score_mono cut obj a b : better a b -> score cut obj a <= score cut obj b.
Proof.
  intros (_ & U & X & L & Un & Bn). unfold score. rewrite <- U, <- X.
  assert (P : (m_up a - m_x a) * m_unit a <= (m_up a - m_x a) * m_unit b) by nra.
  set (p := (m_up a - m_x a) * m_unit a) in *. set (q := (m_up a - m_x a) * m_unit b) in *. clearbody p q.
  destruct (smax_spec p (m_bnd a - obj)) as [[H1 ->] | [H1 ->]];
    destruct (smax_spec q (m_bnd b - obj)) as [[H2 ->] | [H2 ->]];
    match goal with |- smin ?c ?x <= smin ?c ?y =>
      destruct (smin_spec c x) as [[H3 ->] | [H3 ->]]; destruct (smin_spec c y) as [[H4 ->] | [H4 ->]] end; lra.
Qed.

Lemma score_pos cut obj m : obj <= cut -> m_x m <= m_up m -> 0 <= m_unit m -> 0 <= score cut obj m.
Proof.
  intros C X U. unfold score.
  assert (P : 0 <= (m_up m - m_x m) * m_unit m) by nra. set (p := (m_up m - m_x m) * m_unit m) in *. clearbody p.
  destruct (smax_spec p (m_bnd m - obj)) as [[H1 ->] | [H1 ->]];
    match goal with |- 0 <= smin ?c ?x => destruct (smin_spec c x) as [[H3 ->] | [H3 ->]] end; lra.
Qed.

Lemma score_low cut obj m : cut < obj -> m_x m <= m_up m -> 0 <= m_unit m -> score cut obj m = cut - obj.
Proof.
  intros C X U. unfold score.
  assert (P : 0 <= (m_up m - m_x m) * m_unit m) by nra. set (p := (m_up m - m_x m) * m_unit m) in *. clearbody p.
  destruct (smax_spec p (m_bnd m - obj)) as [[H1 ->] | [H1 ->]];
    match goal with |- smin ?c ?x = _ => destruct (smin_spec c x) as [[H3 ->] | [H3 ->]] end; try reflexivity; exfalso; lra.
Qed.

Lemma useful_mono geo tol cut obj : obj <= cut -> forall ms ms', Forall2 better ms ms' -> Forall sane ms ->
  forall r0 r0' r r', 0 <= r0 -> r0 <= r0' ->
  useful geo tol cut obj ms r0 = Ok r -> useful geo tol cut obj ms' r0' = Ok r' -> 0 <= r /\ r <= r'.
Proof.
  intros C. induction 1 as [| a b ms ms' B _ IH]; intros Sa r0 r0' r r' P L E E'.
  - cbn in E, E'. injection E as <-. injection E' as <-. auto.
  - inversion Sa as [| ? ? S1 S2]; subst. pose proof B as (Bl & Bu & Bx & Bxu & _ & _).
    cbn [useful] in E, E'. rewrite <- Bl, <- Bu in E'.
    destruct (Qltb (Qabs (m_lo a - m_up a)) tol); [exact (IH S2 _ _ _ _ P L E E') |].
    destruct (chk (Qltb (m_lo a) (m_up a))); cbn [bind] in E, E'; try discriminate E.
    cbv zeta in E, E'. rewrite Bu in E' at 1. rewrite Bu in E'. 
    fold (score cut obj a) in E. fold (score cut obj b) in E'.
    pose proof (score_mono cut obj a b B) as M. pose proof (score_pos cut obj a C Bxu S1) as P1.
    set (x := score cut obj a) in *. set (y := score cut obj b) in *. clearbody x y.
    destruct geo; refine (IH S2 _ _ _ _ _ _ E E'); nra.
Qed.

Lemma useful_sum_mono tol cut obj : forall ms ms', Forall2 better ms ms' ->
  forall r0 r0' r r', r0 <= r0' ->
  useful false tol cut obj ms r0 = Ok r -> useful false tol cut obj ms' r0' = Ok r' -> r <= r'.
Proof.
  induction 1 as [| a b ms ms' B _ IH]; intros r0 r0' r r' L E E'.
  - cbn in E, E'. injection E as <-. injection E' as <-. auto.
  - pose proof B as (Bl & Bu & Bx & Bxu & _ & _).
    cbn [useful] in E, E'. rewrite <- Bl, <- Bu in E'.
    destruct (Qltb (Qabs (m_lo a - m_up a)) tol); [exact (IH _ _ _ _ L E E') |].
    destruct (chk (Qltb (m_lo a) (m_up a))); cbn [bind] in E, E'; try discriminate E.
    cbv zeta in E, E'. rewrite Bu in E'.
    fold (score cut obj a) in E. fold (score cut obj b) in E'.
    pose proof (score_mono cut obj a b B) as M.
    set (x := score cut obj a) in *. set (y := score cut obj b) in *. clearbody x y.
    refine (IH _ _ _ _ _ E E'). lra.
Qed.

Lemma useful_low geo tol cut obj : cut < obj -> forall ms, Forall sane ms -> Forall (fun m => m_x m <= m_up m) ms ->
  forall r0 r, useful geo tol cut obj ms r0 = Ok r ->
  r == if geo then r0 * (cut - obj) ^ Z.of_nat (free tol ms) else r0 + inject_Z (Z.of_nat (free tol ms)) * (cut - obj).
Proof.
  intros C. induction ms as [| m ms IH]; intros Sa Xa r0 r E.
  - cbn in E. injection E as <-. cbn. destruct geo; ring.
  - inversion Sa as [| ? ? S1 S2]; subst. inversion Xa as [| ? ? X1 X2]; subst.
    cbn [useful] in E. unfold free. cbn [filter].
    destruct (Qltb (Qabs (m_lo m - m_up m)) tol); cbn [negb]; [exact (IH S2 X2 _ _ E) |].
    destruct (chk (Qltb (m_lo m) (m_up m))); cbn [bind] in E; try discriminate E.
    cbv zeta in E. fold (score cut obj m) in E. rewrite (score_low cut obj m C X1 S1) in E.
    specialize (IH S2 X2 _ _ E). cbn [length]. fold (free tol ms).
    rewrite Nat2Z.inj_succ. destruct geo; rewrite IH.
    + unfold Z.succ. rewrite Qpower_plus by lra. change ((cut - obj) ^ 1) with (cut - obj). ring.
    + unfold Z.succ. rewrite inject_Z_plus. ring.
Qed.

(** ** Means *)
Definition agg (geo : bool) (l : list Q) : Q := if geo then qprod l else qplus l.

Lemma agg_snoc geo l u : agg geo (l ++ [u]) == if geo then agg geo l * u else agg geo l + u.
Proof.
  destruct geo; unfold agg, qprod, qplus; induction l as [| x l IH]; cbn; try ring; rewrite IH; ring.
Qed.

Lemma learn_length geo n p o : length p = n -> length (o_unit o) = n -> length (learn geo p o) = n.
Proof.
  intros P U. unfold learn. destruct (o_root o); [now rewrite map_length |].
  destruct (o_enough o); [| exact P]. rewrite map_length, combine_length. lia.
Qed.

Lemma learn_nth geo n p o k : length p = n -> length (o_unit o) = n -> (k < n)%nat ->
  nth k (learn geo p o) (0, O)
  = (let u := nth k (o_unit o) 0 in
     let q := nth k p (0, O) in
     if o_root o then (u, 1%nat)
     else if (o_enough o && Qltb 0 u)%bool then ((if geo then fst q * u else fst q + u), S (snd q)) else q).
Proof.
  intros P U K. unfold learn. cbv zeta. destruct (o_root o).
  - set (g := fun u : Q => (u, 1%nat)). rewrite nth_indep with (d' := g 0) by (rewrite map_length; lia).
    now rewrite (map_nth g).
  - destruct (o_enough o); cbn [andb]; [| reflexivity].
    set (g := fun q : Q * nat * Q => let '(a, n0, u) := q in
         if Qltb 0 u then (if geo then a * u else a + u, S n0) else (a, n0)).
    rewrite nth_indep with (d' := g ((0, O), 0)) by (rewrite map_length, combine_length; lia).
    rewrite (map_nth g). rewrite combine_nth by lia.
    destruct (nth k p (0, O)) as [a m]. unfold g. cbn [fst snd]. reflexivity.
Qed.

Lemma learn_all geo n k : (k < n)%nat -> forall os p acc, fits n os -> length p = n ->
  snd (nth k p (0, O)) = length acc -> fst (nth k p (0, O)) == agg geo acc ->
  snd (nth k (fold_left (learn geo) os p) (0, O)) = length (seen k os acc) /\
  fst (nth k (fold_left (learn geo) os p) (0, O)) == agg geo (seen k os acc).
Proof.
  intros K. induction os as [| o os IH]; intros p acc F P A B; [auto |].
  pose proof (Forall_inv F) as F1. pose proof (Forall_inv_tail F) as F2. cbn beta in F1. cbn [fold_left seen].
  apply IH; [exact F2 | now apply learn_length | |]; rewrite (learn_nth geo n) by auto; cbv zeta;
    destruct (o_root o); cbn [fst snd].
  - reflexivity.
  - destruct (o_enough o && Qltb 0 (nth k (o_unit o) 0))%bool; cbn [snd]; [| exact A].
    rewrite A, app_length. cbn. lia.
  - destruct geo; cbn; ring.
  - destruct (o_enough o && Qltb 0 (nth k (o_unit o) 0))%bool; cbn [fst]; [| exact B].
    rewrite agg_snoc. destruct geo; rewrite B; reflexivity.
Qed.

Lemma seen_app k : forall a b acc, seen k (a ++ b) acc = seen k b (seen k a acc).
Proof. induction a as [| o a IH]; intros b acc; [reflexivity |]. cbn [app seen]. apply IH. Qed.

Lemma fold_length geo n : forall os p, fits n os -> length p = n -> length (fold_left (learn geo) os p) = n.
Proof.
  induction os as [| o os IH]; intros p F P; [exact P |]. pose proof (Forall_inv F) as F1. pose proof (Forall_inv_tail F) as F2. cbn beta in F1. cbn [fold_left].
  apply IH; [exact F2 | now apply learn_length].
Qed.

Lemma learn_rooted geo n k os o1 os2 p acc : (k < n)%nat -> fits n (os ++ o1 :: os2) -> length p = n -> o_root o1 = true ->
  snd (nth k (fold_left (learn geo) (os ++ o1 :: os2) p) (0, O)) = length (seen k (os ++ o1 :: os2) acc) /\
  fst (nth k (fold_left (learn geo) (os ++ o1 :: os2) p) (0, O)) == agg geo (seen k (os ++ o1 :: os2) acc).
Proof.
  intros K F P R. apply Forall_app in F. destruct F as [Fa Fb]. pose proof (Forall_inv Fb) as F1. pose proof (Forall_inv_tail Fb) as F2. cbn beta in F1.
  rewrite fold_left_app, seen_app. cbn [fold_left seen]. rewrite R.
  pose proof (fold_length geo n os p Fa P) as L.
  apply learn_all with (n := n); auto.
  - now apply learn_length.
  - rewrite (learn_nth geo n) by auto. cbv zeta. rewrite R. reflexivity.
  - rewrite (learn_nth geo n) by auto. cbv zeta. rewrite R. cbn [fst]. destruct geo; cbn; ring.
Qed.

Lemma mean_eq (root : Q -> nat -> Q) geo q l :
  (forall a b m, a == b -> root a m == root b m) -> l <> [] ->
  snd q = length l -> fst q == agg geo l -> mean root geo q == the_mean root geo l.
Proof.
  intros Hr N A B. unfold mean, the_mean. destruct (snd q) as [| m] eqn:E.
  - destruct l; [now destruct N | discriminate A].
  - rewrite <- A. destruct geo.
    + apply Hr. exact B.
    + rewrite B. reflexivity.
Qed.
