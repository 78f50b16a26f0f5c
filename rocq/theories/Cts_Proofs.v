From Verif Require Import Base Arr Cts_Model Cts_Spec.

(** ** Lists *)
Lemma put_length {B} i (v : B) l : length (put i v l) = length l.
Proof. revert i; induction l; destruct i; simpl; auto. Qed.
Lemma put_nth {B} i j (v d : B) l : nth j (put i v l) d = if Nat.eqb i j && Nat.ltb j (length l) then v else nth j l d.
Proof.
  revert i j; induction l as [|a l IH]; intros [|i] [|j]; cbn [put nth length]; rewrite ?IH; auto; rewrite ?andb_false_r; auto.
Qed.
Lemma put_map {B C} (f : B -> C) i v l : map f (put i v l) = put i (f v) (map f l).
Proof. revert i; induction l; destruct i; simpl; auto. f_equal; auto. Qed.
Lemma put_out {B} i (v : B) l : length l <= i -> put i v l = l.
Proof. revert i; induction l; destruct i; simpl; intros; auto; try lia. f_equal. apply IHl; lia. Qed.
Lemma put_eq {B} i (v : B) l : i < length l -> put i v l = firstn i l ++ v :: skipn (S i) l.
Proof. revert i; induction l; destruct i; simpl; intros; auto; try lia. f_equal. apply IHl; lia. Qed.
Lemma set_nth_put {B} i (v : B) l : i < length l -> set_nth i v l = Some (put i v l).
Proof. intros L. unfold set_nth. rewrite (proj2 (Nat.ltb_lt _ _) L), put_eq; auto. Qed.
Lemma put_put {B} i (u v : B) l : put i v (put i u l) = put i v l.
Proof. revert i; induction l; destruct i; simpl; auto. f_equal; auto. Qed.
Lemma nth_some_lt {B} i (l : list (option B)) c : nth i l None = Some c -> i < length l.
Proof. intros E. destruct (le_lt_dec (length l) i); auto. rewrite nth_overflow in E; [discriminate|auto]. Qed.
Lemma split_at {B} k (l : list B) p : nth_error l k = Some p -> l = firstn k l ++ p :: skipn (S k) l.
Proof.
  revert k; induction l as [|a l IH]; intros [|k] E; try discriminate; cbn [nth_error] in E.
  - injection E as ->; auto.
  - cbn [firstn app]. f_equal. apply (IH k E).
Qed.

(** ** Counting pointers *)
Definition one (n m : nat) : nat := if Nat.eqb n m then 1 else 0.
Definition pone (n : nat) (p : ptr) : nat := match p with Some m => one n m | None => 0 end.
Lemma times_cons n p ps : times n (p :: ps) = pone n p + times n ps.
Proof. unfold times; simpl. destruct p as [m|]; simpl; unfold one; auto. destruct (Nat.eqb n m); simpl; auto. Qed.
Lemma times_app n p q : times n (p ++ q) = times n p + times n q.
Proof. unfold times. rewrite filter_app, app_length. auto. Qed.
Definition live {A} (H : list (option A)) (n : nat) : nat := match nth n H None with Some _ => 1 | None => 0 end.
Definition qs {R} (c : option (coll R)) : list ptr := match c with Some c => c_quads c | None => [] end.
Definition tot {R} (n : nat) (l : list (option (coll R))) : nat := times n (concat (map qs l)).
Lemma tot_cons {R} n (c : option (coll R)) l : tot n (c :: l) = times n (qs c) + tot n l.
Proof. unfold tot; simpl. apply times_app. Qed.
Lemma tot_app {R} n (l m : list (option (coll R))) : tot n (l ++ m) = tot n l + tot n m.
Proof. unfold tot. rewrite map_app, concat_app, times_app. auto. Qed.
Lemma tot_put {R} n i (c : option (coll R)) l : i < length l -> tot n (put i c l) + times n (qs (nth i l None)) = tot n l + times n (qs c).
Proof.
  revert i; induction l as [|a l IH]; intros [|i] L; simpl in L; try lia; cbn [put nth]; rewrite !tot_cons; try lia.
  specialize (IH i ltac:(lia)). lia.
Qed.
Lemma tot_in {R} n i (l : list (option (coll R))) : times n (qs (nth i l None)) <= tot n l.
Proof. revert i; induction l as [|a l IH]; intros [|i]; cbn [nth qs]; rewrite ?tot_cons; try (cbn; lia). specialize (IH i); lia. Qed.
Lemma tot_two {R} n i j (l : list (option (coll R))) : i <> j -> times n (qs (nth i l None)) + times n (qs (nth j l None)) <= tot n l.
Proof.
  revert i j; induction l as [|a l IH]; intros [|i] [|j] N; cbn [nth qs]; rewrite ?tot_cons; try (cbn; lia).
  - pose proof (tot_in n j l). lia.
  - pose proof (tot_in n i l). lia.
  - specialize (IH i j ltac:(lia)). lia.
Qed.
Definition Inv {A R} (w : world A R) : Prop := forall n, tot n (colls w) + times n (vars w) = live (heap w) n.
Lemma times_pos n ps : In (Some n) ps -> 1 <= times n ps.
Proof. induction ps as [|p ps IH]; simpl; intros []; rewrite times_cons; [subst; simpl; unfold one; rewrite Nat.eqb_refl; lia|specialize (IH H); lia]. Qed.
Lemma live_le {A} (H : list (option A)) n : live H n <= 1.
Proof. unfold live. destruct (nth n H None); lia. Qed.
Lemma live_look {A} (H : list (option A)) n : live H n = 1 -> exists v, nth n H None = Some v.
Proof. unfold live. destruct (nth n H None); [eauto|discriminate]. Qed.
Definition good {A} (H : list (option A)) (p : ptr) : Prop := forall n, p = Some n -> exists v, nth n H None = Some v.
Definition goods {A} (H : list (option A)) (ps : list ptr) : Prop := forall p, In p ps -> good H p.
Lemma goods_live {A} (H : list (option A)) ps : (forall n, times n ps <= live H n) -> goods H ps.
Proof.
  intros L p I n ->. apply live_look. specialize (L n). pose proof (times_pos _ _ I). pose proof (live_le H n). lia.
Qed.
Lemma inv_coll {A R} (w : world A R) i c n : Inv w -> nth i (colls w) None = Some c -> times n (c_quads c) <= live (heap w) n.
Proof. intros I E. specialize (I n). pose proof (tot_in n i (colls w)) as T. rewrite E in T. simpl in T. lia. Qed.
Lemma inv_vars {A R} (w : world A R) n : Inv w -> times n (vars w) <= live (heap w) n.
Proof. intros I. specialize (I n). lia. Qed.
Lemma inv_goods {A R} (w : world A R) i c : Inv w -> nth i (colls w) None = Some c -> goods (heap w) (c_quads c).
Proof. intros I E. apply goods_live. intros n. eapply inv_coll; eauto. Qed.
Lemma inv_start {A R} : Inv (@start A R).
Proof. intros n. unfold live; simpl. destruct n; reflexivity. Qed.

(** ** The heap *)
Lemma nth_app_l {A} (H K : list (option A)) n v : nth n H None = Some v -> nth n (H ++ K) None = Some v.
Proof. intros E. rewrite app_nth1; auto. eapply nth_some_lt; eauto. Qed.
Lemma look_app {A} (H K : list (option A)) p : good H p -> look (H ++ K) p = look H p.
Proof. destruct p as [n|]; simpl; auto. intros G. destruct (G n eq_refl) as [v E]. rewrite E. apply nth_app_l; auto. Qed.
Lemma looks_app {A} (H K : list (option A)) ps : goods H ps -> map (look (H ++ K)) ps = map (look H) ps.
Proof. intros G. apply map_ext_in. intros p I. apply look_app. auto. Qed.
Lemma live_app {A} (H : list (option A)) vs n : live (H ++ map Some vs) n = live H n + times n (map Some (seq (length H) (length vs))).
Proof.
  revert H; induction vs as [|v vs IH]; intros H; simpl map; simpl length; simpl seq.
  - rewrite app_nil_r. cbn. lia.
  - replace (H ++ Some v :: map Some vs) with ((H ++ [Some v]) ++ map Some vs) by (rewrite <- app_assoc; reflexivity).
    rewrite IH, app_length. simpl length. replace (length H + 1) with (S (length H)) by lia. cbn [map]. rewrite times_cons. simpl pone.
    assert (E : live (H ++ [Some v]) n = live H n + one n (length H)); [|lia].
    unfold live, one. destruct (lt_eq_lt_dec n (length H)) as [[L|L]|L].
    + rewrite app_nth1 by lia. rewrite (proj2 (Nat.eqb_neq _ _)) by lia. lia.
    + subst. rewrite app_nth2, Nat.sub_diag by lia. rewrite (nth_overflow H) by lia. rewrite Nat.eqb_refl. simpl. lia.
    + rewrite !nth_overflow by (rewrite ?app_length; simpl; lia). rewrite (proj2 (Nat.eqb_neq _ _)) by lia. lia.
Qed.
Lemma looks_new {A} (H : list (option A)) vs : map (look (H ++ map Some vs)) (map Some (seq (length H) (length vs))) = map Some vs.
Proof.
  revert H; induction vs as [|v vs IH]; intros H; simpl; auto. f_equal.
  - rewrite app_nth2, Nat.sub_diag; auto.
  - replace (H ++ Some v :: map Some vs) with ((H ++ [Some v]) ++ map Some vs) by (rewrite <- app_assoc; reflexivity).
    replace (S (length H)) with (length (H ++ [Some v])) by (rewrite app_length; simpl; lia). apply IH.
Qed.
Lemma no_null_values {A} (l : list (option A)) : no_null l = true -> exists vs, l = map Some vs.
Proof.
  induction l as [|[v|] l IH]; simpl; intros E; try discriminate.
  - exists []; auto.
  - destruct (IH E) as [vs ->]. exists (v :: vs); auto.
Qed.
Lemma values_no_null {A} (vs : list A) : no_null (map Some vs) = true.
Proof. induction vs; simpl; auto. Qed.
Lemma dup_ok {A} ps (H : list (option A)) vs : map (look H) ps = map Some vs -> goods H ps ->
  dup ps H = Ok (H ++ map Some vs, map Some (seq (length H) (length vs))).
Proof.
  revert H vs; induction ps as [|p ps IH]; intros H [|v vs] E G; simpl in E; try discriminate.
  - simpl. rewrite app_nil_r. auto.
  - injection E as E1 E2. destruct p as [n|]; simpl in E1; [|discriminate]. cbn [dup deref alloc]. rewrite E1. cbn [bind].
    rewrite (IH (H ++ [Some v]) vs).
    + cbn [bind]. rewrite <- app_assoc, app_length. simpl. replace (length H + 1) with (S (length H)) by lia. auto.
    + rewrite looks_app; auto. intros q I. apply G. simpl; auto.
    + intros q I m ->. destruct (G (Some m) ltac:(simpl; auto) m eq_refl) as [u U]. exists u. apply nth_app_l; auto.
Qed.
Lemma dup_null {A} ps (H : list (option A)) r : goods H ps -> dup ps H = Ok r -> no_null (map (look H) ps) = true.
Proof.
  revert H r; induction ps as [|p ps IH]; intros H r G E; auto. cbn [dup] in E.
  destruct p as [n|]; [|discriminate]. destruct (G (Some n) ltac:(simpl; auto) n eq_refl) as [v V]. cbn [deref alloc] in E. rewrite V in E. cbn [bind] in E.
  apply bind_ok in E as [[H2 ns] [E _]]. apply IH in E.
  - rewrite looks_app in E by (intros q I; apply G; simpl; auto). simpl. rewrite V. auto.
  - intros q I m ->. destruct (G (Some m) ltac:(simpl; auto) m eq_refl) as [u U]. exists u. apply nth_app_l; auto.
Qed.
Lemma live_free {A} (H : list (option A)) m v n : nth m H None = Some v -> live (put m None H) n + one n m = live H n.
Proof.
  intros E. unfold live, one. rewrite put_nth. pose proof (nth_some_lt _ _ _ E) as L. destruct (Nat.eqb_spec n m) as [->|N].
  - rewrite Nat.eqb_refl, (proj2 (Nat.ltb_lt _ _) L), E. auto.
  - rewrite (proj2 (Nat.eqb_neq m n)) by auto. simpl. lia.
Qed.
Lemma free_ok {A} p (H : list (option A)) : good H p -> exists H', free p H = Ok H' /\ (forall n, live H' n + pone n p = live H n) /\
  (forall n, pone n p = 0 -> nth n H' None = nth n H None) /\ length H' = length H.
Proof.
  destruct p as [m|]; intros G.
  - destruct (G m eq_refl) as [v V]. exists (put m None H). simpl. rewrite V. repeat split.
    + intros n. eapply live_free; eauto.
    + intros n N. rewrite put_nth. destruct (Nat.eqb_spec m n) as [->|]; auto. unfold one in N. rewrite Nat.eqb_refl in N. discriminate.
    + apply put_length.
  - exists H. simpl. repeat split; auto.
Qed.
Lemma free_all_ok {A} ps (H : list (option A)) : (forall n, times n ps <= live H n) -> exists H', free_all ps H = Ok H' /\
  (forall n, live H' n + times n ps = live H n) /\ (forall n, times n ps = 0 -> nth n H' None = nth n H None) /\ length H' = length H.
Proof.
  revert H; induction ps as [|p ps IH]; intros H L.
  - exists H. simpl. repeat split; auto.
  - destruct (free_ok p H) as (H1 & E1 & L1 & N1 & K1).
    { apply (goods_live H (p :: ps) L). simpl; auto. }
    destruct (IH H1) as (H2 & E2 & L2 & N2 & K2).
    { intros n. specialize (L n). rewrite times_cons in L. specialize (L1 n). lia. }
    exists H2. cbn [free_all]. rewrite E1. cbn [bind]. rewrite E2. repeat split; auto; try congruence.
    + intros n. rewrite times_cons. specialize (L1 n); specialize (L2 n). lia.
    + intros n. rewrite times_cons. intros Z. rewrite N2 by lia. apply N1. lia.
Qed.
Lemma looks_free {A} (H H' : list (option A)) ps qs : (forall n, times n ps = 0 -> nth n H' None = nth n H None) ->
  (forall n, times n ps + times n qs <= 1) -> map (look H') qs = map (look H) qs.
Proof.
  intros N D. apply map_ext_in. intros [n|] I; simpl; auto. apply N. specialize (D n). pose proof (times_pos _ _ I). lia.
Qed.

(** ** What is seen *)
Lemma see_put {A R} (H H' : list (option A)) i (c : option (coll R)) l :
  (forall j d, j <> i -> nth j l None = Some d -> map (look H') (c_quads d) = map (look H) (c_quads d)) ->
  map (option_map (see_coll H')) (put i c l) = put i (option_map (see_coll H') c) (map (option_map (see_coll H)) l).
Proof.
  revert i; induction l as [|a l IH]; intros [|i] E; simpl; auto; f_equal.
  - apply map_ext_in. intros [d|] I; simpl; auto. unfold see_coll. f_equal. f_equal.
    destruct (In_nth _ _ None I) as (j & L & J). apply (E (S j)); auto.
  - destruct a as [d|]; simpl; auto. unfold see_coll. f_equal. f_equal. apply (E 0 d); auto.
  - apply IH. intros j d N. apply (E (S j)). lia.
Qed.
Lemma see_all {A R} (H H' : list (option A)) (l : list (option (coll R))) :
  (forall j d, nth j l None = Some d -> map (look H') (c_quads d) = map (look H) (c_quads d)) ->
  map (option_map (see_coll H')) l = map (option_map (see_coll H)) l.
Proof.
  intros E. apply map_ext_in. intros [d|] I; simpl; auto. unfold see_coll. f_equal. f_equal.
  destruct (In_nth _ _ None I) as (j & L & J). eauto.
Qed.
Lemma there_see {A R} (w : world A R) i : there i (see w) = option_map (see_coll (heap w)) (nth i (colls w) None).
Proof. unfold there, see; simpl. change None with (option_map (see_coll (heap w)) (@None (coll R))) at 1. apply map_nth. Qed.
Lemma there_some {A R} (w : world A R) i x : there i (see w) = Some x -> exists c, nth i (colls w) None = Some c /\ x = see_coll (heap w) c.
Proof. rewrite there_see. destruct (nth i (colls w) None); simpl; intros E; [injection E as <-; eauto|discriminate]. Qed.
Lemma upd_see {A R} (w : world A R) i c : i < length (colls w) ->
  upd_coll i c (see w) = Some (mkSeen (put i c (v_colls (see w))) (v_vars (see w))).
Proof. intros L. unfold upd_coll. rewrite set_nth_put; auto. simpl. rewrite map_length. auto. Qed.
Lemma obind_some {B C} (x : option B) (f : B -> option C) y : obind x f = Some y -> exists a, x = Some a /\ f a = Some y.
Proof. destruct x; simpl; intros; [eauto|discriminate]. Qed.

(** ** Inserting a collection *)
Lemma skipn_cons {B} k (l : list B) p q : skipn k l = p :: q -> nth_error l k = Some p /\ skipn (S k) l = q /\ k < length l.
Proof.
  revert k; induction l as [|a l IH]; intros [|k] E; try discriminate; cbn [skipn] in E.
  - injection E as -> ->. simpl; repeat split; lia.
  - destruct (IH k E) as (X & Y & Z). repeat split; auto. simpl; lia.
Qed.
Lemma ins_loop_ok {A R} vs : forall k i j (w : world A R) ci cj fuel, i <> j -> nth i (colls w) None = Some ci -> nth j (colls w) None = Some cj ->
  map (look (heap w)) (skipn k (c_quads cj)) = map Some vs -> goods (heap w) (c_quads cj) -> length vs < fuel ->
  ins_loop fuel k i j w = Ok (mkW (heap w ++ map Some vs)
    (put i (Some (mkColl (c_rows ci) (c_quads ci ++ map Some (seq (length (heap w)) (length vs))))) (colls w)) (vars w)).
Proof.
  induction vs as [|v vs IH]; intros k i j w ci cj fuel N Ei Ej M G F; destruct fuel as [|f]; try (simpl in F; lia); cbn [ins_loop];
  unfold coll_at at 1; rewrite Ej; cbn [bind].
  - destruct (skipn k (c_quads cj)) eqn:S; [|discriminate]. assert (L : length (c_quads cj) <= k).
    { pose proof (skipn_length k (c_quads cj)) as X. rewrite S in X. simpl in X. lia. }
    rewrite (proj2 (Nat.ltb_ge _ _) L). simpl. rewrite !app_nil_r. destruct w as [H cs xs]; simpl in *. f_equal. f_equal.
    symmetry. destruct ci. simpl. clear -Ei. revert i Ei. induction cs as [|c cs IHc]; intros [|i] E; simpl in *; auto; try (subst; auto; fail). f_equal; auto.
  - destruct (skipn k (c_quads cj)) as [|p q] eqn:S; [discriminate|]. cbn [map] in M. injection M as M1 M2.
    destruct (skipn_cons _ _ _ _ S) as (E1 & E2 & L). rewrite (proj2 (Nat.ltb_lt _ _) L). unfold quad_at. rewrite E1. cbn [bind].
    destruct p as [n|]; simpl in M1; [|discriminate]. cbn [deref]. rewrite M1. cbn [bind]. unfold coll_at. rewrite Ei. cbn [bind alloc].
    assert (Li : i < length (colls w)) by (eapply nth_some_lt; eauto).
    erewrite (IH (Datatypes.S k) i j _ (mkColl (c_rows ci) (c_quads ci ++ [Some (length (heap w))])) cj f); auto.
    + unfold set_coll, with_heap. cbn [heap colls vars c_rows c_quads]. rewrite put_put, <- !app_assoc, app_length. cbn [length map app seq].
      replace (length (heap w) + 1) with (Datatypes.S (length (heap w))) by lia. reflexivity.
    + unfold set_coll, with_heap. cbn [heap colls vars]. rewrite put_nth, Nat.eqb_refl, (proj2 (Nat.ltb_lt _ _) Li). reflexivity.
    + unfold set_coll, with_heap. cbn [heap colls vars]. rewrite put_nth, (proj2 (Nat.eqb_neq i j) N). exact Ej.
    + unfold set_coll, with_heap. cbn [heap colls vars]. rewrite E2, looks_app; auto. intros r I. apply G.
      rewrite (split_at k (c_quads cj) _ E1). rewrite E2. apply in_or_app. right. right. exact I.
    + unfold set_coll, with_heap. cbn [heap colls vars]. intros r I m ->. destruct (G _ I m eq_refl) as [u U]. exists u. apply nth_app_l; auto.
    + simpl in F. lia.
Qed.
Lemma ins_loop_self {A R} fuel : forall k i (w w' : world A R) c, nth i (colls w) None = Some c -> k < length (c_quads c) -> ins_loop fuel k i i w <> Ok w'.
Proof.
  induction fuel as [|f IH]; intros k i w w' c E L; [discriminate|]. cbn [ins_loop]. unfold coll_at at 1. rewrite E. cbn [bind].
  rewrite (proj2 (Nat.ltb_lt _ _) L). destruct (quad_at k c); cbn [bind]; try discriminate. destruct (deref (heap w) a); cbn [bind]; try discriminate.
  unfold coll_at. rewrite E. cbn [bind alloc].
  apply (IH _ _ _ _ (mkColl (c_rows c) (c_quads c ++ [Some (length (heap w))]))).
  - unfold set_coll, with_heap. cbn [heap colls vars]. rewrite put_nth, Nat.eqb_refl, (proj2 (Nat.ltb_lt _ _)); auto. eapply nth_some_lt; eauto.
  - cbn [c_quads]. rewrite app_length. simpl. lia.
Qed.
Lemma ins_loop_null {A R} fuel : forall k i j (w w' : world A R) cj ci, i <> j -> nth j (colls w) None = Some cj -> nth i (colls w) None = Some ci ->
  goods (heap w) (c_quads cj) ->
  ins_loop fuel k i j w = Ok w' -> no_null (map (look (heap w)) (skipn k (c_quads cj))) = true.
Proof.
  induction fuel as [|f IH]; intros k i j w w' cj ci N E Ei G X; [discriminate|]. cbn [ins_loop] in X. unfold coll_at at 1 in X. rewrite E in X. cbn [bind] in X.
  destruct (Nat.ltb_spec k (length (c_quads cj))) as [L|L].
  2:{ rewrite skipn_all2; auto. }
  unfold quad_at in X. destruct (nth_error (c_quads cj) k) as [p|] eqn:P; cbn [bind] in X; [|discriminate].
  destruct p as [n|]; [|discriminate]. cbn [deref] in X. destruct (nth n (heap w) None) as [v|] eqn:V; [|discriminate]. cbn [bind] in X.
  unfold coll_at in X. rewrite Ei in X. cbn [bind alloc] in X.
  assert (Sk : skipn k (c_quads cj) = Some n :: skipn (S k) (c_quads cj)).
  { rewrite (split_at _ _ _ P) at 1. rewrite skipn_app, skipn_all2, firstn_length by (rewrite firstn_length; lia). simpl.
    replace (k - Nat.min k (length (c_quads cj))) with 0 by lia. reflexivity. }
  apply (IH _ _ _ _ _ cj (mkColl (c_rows ci) (c_quads ci ++ [Some (length (heap w))]))) in X; auto.
  - unfold set_coll, with_heap in X. cbn [heap] in X. rewrite looks_app in X.
    + rewrite Sk. cbn [map look no_null forallb]. rewrite V. exact X.
    + intros q I. apply G. rewrite <- (firstn_skipn (S k) (c_quads cj)). apply in_or_app; auto.
  - unfold set_coll, with_heap. cbn [heap colls vars]. rewrite put_nth, (proj2 (Nat.eqb_neq i j) N). exact E.
  - unfold set_coll, with_heap. cbn [heap colls vars]. rewrite put_nth, Nat.eqb_refl, (proj2 (Nat.ltb_lt _ _)); auto. eapply nth_some_lt; eauto.
  - unfold set_coll, with_heap. cbn [heap colls vars]. intros r I m ->. destruct (G _ I m eq_refl) as [u U]. exists u. apply nth_app_l; auto.
Qed.

(** ** One call *)
Definition kept {A R} (w : world A R) (i : nat) (H' : list (option A)) : Prop :=
  (forall j d, j <> i -> nth j (colls w) None = Some d -> map (look H') (c_quads d) = map (look (heap w)) (c_quads d)) /\
  map (look H') (vars w) = map (look (heap w)) (vars w).
Lemma see_after {A R} (w : world A R) i c' H' : kept w i H' ->
  see (mkW H' (put i c' (colls w)) (vars w)) = mkSeen (put i (option_map (see_coll H') c') (v_colls (see w))) (v_vars (see w)).
Proof. intros [K1 K2]. unfold see; simpl. rewrite (see_put (heap w)), K2; auto. Qed.
Lemma inv_after {A R} (w : world A R) i c c' (H' : list (option A)) : Inv w -> nth i (colls w) None = c -> i < length (colls w) ->
  (forall n, live H' n + times n (qs c) = live (heap w) n + times n (qs c')) -> Inv (mkW H' (put i c' (colls w)) (vars w)).
Proof.
  intros I E L B n. simpl. specialize (I n). specialize (B n). pose proof (tot_put n i c' (colls w) L) as T. rewrite E in T. lia.
Qed.
Lemma kept_app {A R} (w : world A R) i K : Inv w -> kept w i (heap w ++ K).
Proof.
  intros I. split.
  - intros j d _ E. apply looks_app. eapply inv_goods; eauto.
  - apply looks_app. apply goods_live. intros n. apply inv_vars; auto.
Qed.
Lemma kept_same {A R} (w : world A R) i : kept w i (heap w).
Proof. split; auto. Qed.
Lemma kept_free {A R} (w : world A R) i c H' ps : Inv w -> nth i (colls w) None = Some c -> (forall n, times n ps <= times n (c_quads c)) ->
  (forall n, times n ps = 0 -> nth n H' None = nth n (heap w) None) -> kept w i H'.
Proof.
  intros I E P N. split.
  - intros j d Nj D. apply (looks_free (heap w) H' ps); auto. intros n. specialize (I n). specialize (P n).
    pose proof (tot_two n i j (colls w) ltac:(auto)) as T. rewrite E, D in T. simpl in T. pose proof (live_le (heap w) n). lia.
  - apply (looks_free (heap w) H' ps); auto. intros n. specialize (I n). specialize (P n).
    pose proof (tot_in n i (colls w)) as T. rewrite E in T. simpl in T. pose proof (live_le (heap w) n). lia.
Qed.
Lemma times_seq_nil n : times n [] = 0.
Proof. reflexivity. Qed.
Lemma live_alloc {A} (H : list (option A)) v n : live (H ++ [Some v]) n = live H n + one n (length H).
Proof. change [Some v] with (map Some [v]). rewrite live_app. cbn [seq length map]. rewrite times_cons, times_seq_nil. simpl. lia. Qed.
Lemma look_new {A} (H : list (option A)) v : look (H ++ [Some v]) (Some (length H)) = Some v.
Proof. simpl. rewrite app_nth2, Nat.sub_diag; auto. Qed.
Lemma push_ok {A R} (w : world A R) i c v : Inv w -> nth i (colls w) None = Some c ->
  let w' := set_coll i (Some (mkColl (c_rows c) (c_quads c ++ [Some (length (heap w))]))) (with_heap (heap w ++ [Some v]) w) in
  upd_coll i (Some (c_rows c, map (look (heap w)) (c_quads c) ++ [Some v])) (see w) = Some (see w') /\ Inv w'.
Proof.
  intros I E w'. assert (L : i < length (colls w)) by (eapply nth_some_lt; eauto). split.
  - rewrite upd_see; auto. f_equal. unfold w', set_coll, with_heap. cbn [heap colls vars]. rewrite see_after by (apply kept_app; auto).
    f_equal. f_equal. cbn [option_map]. unfold see_coll. cbn [c_rows c_quads]. rewrite map_app, looks_app by (eapply inv_goods; eauto).
    cbn [map]. rewrite look_new. reflexivity.
  - unfold w', set_coll, with_heap. cbn [heap colls vars]. apply (inv_after w i (Some c)); auto.
    intros n. cbn [qs c_quads]. rewrite live_alloc, times_app, times_cons, times_seq_nil. simpl. lia.
Qed.
Lemma look_put_out {A} (H : list (option A)) n x ps : times n ps = 0 -> map (look (put n x H)) ps = map (look H) ps.
Proof.
  intros T. apply map_ext_in. intros [m|] J; simpl; auto. rewrite put_nth. destruct (Nat.eqb_spec n m) as [->|]; auto.
  pose proof (times_pos _ _ J). lia.
Qed.
Lemma look_write {A} (H : list (option A)) n v k : forall ps, nth_error ps k = Some (Some n) -> times n ps <= 1 -> n < length H ->
  map (look (put n (Some v) H)) ps = put k (Some v) (map (look H) ps).
Proof.
  revert n; induction k as [|k IH]; intros n [|p ps] E T L; try discriminate; rewrite times_cons in T; cbn [nth_error] in E; cbn [map put].
  - injection E as ->. f_equal.
    + simpl. rewrite put_nth, Nat.eqb_refl, (proj2 (Nat.ltb_lt _ _) L). reflexivity.
    + apply look_put_out. simpl in T. unfold one in T. rewrite Nat.eqb_refl in T. lia.
  - assert (1 <= times n ps) by (apply times_pos; eapply nth_error_In; eauto). f_equal; [|apply IH; auto; lia].
    destruct p as [m|]; simpl; auto. rewrite put_nth. destruct (Nat.eqb_spec n m) as [->|]; auto. simpl in T. unfold one in T. rewrite Nat.eqb_refl in T. lia.
Qed.
Lemma nth_map_look {A} (H : list (option A)) k ps v : nth k (map (look H) ps) None = Some v -> exists n, nth_error ps k = Some (Some n) /\ nth n H None = Some v.
Proof.
  revert k; induction ps as [|p ps IH]; intros [|k] E; cbn [map nth nth_error] in *; try discriminate; auto.
  destruct p as [n|]; simpl in E; [eauto|discriminate].
Qed.
Lemma put_same {B} i (l : list (option B)) : put i (nth i l None) l = l.
Proof. revert i; induction l; intros [|i]; simpl; auto. f_equal; auto. Qed.
Lemma times_put_none n x : forall ps p, nth_error ps x = Some p -> times n (put x None ps) + pone n p = times n ps.
Proof.
  induction x as [|x IH]; intros [|q ps] p E; try discriminate; cbn [nth_error] in E; cbn [put]; rewrite !times_cons.
  - injection E as ->. simpl. lia.
  - specialize (IH _ _ E). lia.
Qed.
Lemma look_put_var {A} (H : list (option A)) x ps : map (look H) (put x None ps) = put x None (map (look H) ps).
Proof. apply (put_map (look H) x None). Qed.

Definition done {A R} (w : world A R) (o : op A R) (s' : seen A R) : Prop :=
  exists N w', (forall fuel, N <= fuel -> step fuel w o = Ok w') /\ see w' = s' /\ Inv w'.
Lemma done0 {A R} (w w' : world A R) o s' : (forall fuel, step fuel w o = Ok w') -> Some (see w') = Some s' -> Inv w' -> done w o s'.
Proof. intros S E I. exists 0, w'. injection E as E. auto. Qed.

Lemma sim {A R} (w : world A R) o s' : Inv w -> calls (see w) o = Some s' -> not_self (see w) o -> done w o s'.
Proof.
  intros I C NS. pose proof (fun i c => inv_goods w i c I) as G. pose proof (fun i c n => inv_coll w i c n I) as IC.
  destruct o as [|i|i j|i|i r|i v|i j k|v|x|i x|i j|i k|i k v]; cbn [calls] in C.
  - (* New *) eapply done0; [intros; reflexivity| |].
    + rewrite <- C. unfold see; simpl. rewrite map_app. reflexivity.
    + intros n. cbn [heap colls vars]. rewrite tot_app, tot_cons. specialize (I n). cbn in *. lia.
  - (* CopyOf *) apply obind_some in C as [x [C1 C2]]. apply there_some in C1 as [c [E ->]]. cbn [see_coll snd] in C2.
    destruct (no_null (map (look (heap w)) (c_quads c))) eqn:NN; [|discriminate]. destruct (no_null_values _ NN) as [vs V].
    eapply done0.
    + intros fuel. cbn [step]. unfold coll_at. rewrite E. cbn [bind]. rewrite (dup_ok _ _ vs); eauto. cbn [bind]. reflexivity.
    + rewrite <- C2. unfold see; cbn [heap colls vars v_colls v_vars]. destruct (kept_app w (length (colls w)) (map Some vs) I) as [K1 K2].
      rewrite map_app, K2. rewrite (see_all (heap w)) by (intros j d Ej; eapply looks_app; eauto). cbn [map option_map]. unfold see_coll at 2.
      cbn [c_rows c_quads]. rewrite looks_new, <- V. reflexivity.
    + intros n. cbn [heap colls vars]. rewrite tot_app, tot_cons, live_app. specialize (I n). cbn [qs c_quads]. unfold tot at 2. cbn. lia.
  - (* Assign *) apply obind_some in C as [x [C1 C2]]. apply there_some in C1 as [c [E ->]].
    apply obind_some in C2 as [y [C2 C3]]. apply there_some in C2 as [d [E2 ->]].
    assert (L : i < length (colls w)) by (eapply nth_some_lt; eauto). rewrite upd_see in C3 by auto.
    destruct (Nat.eqb_spec i j) as [->|Nij]; cbn [orb] in C3.
    + eapply done0; [intros; cbn [step]; unfold coll_at; rewrite E; cbn [bind]; rewrite Nat.eqb_refl; reflexivity| |auto].
      rewrite <- C3. f_equal. rewrite E in E2. injection E2 as <-. unfold see; cbn [v_colls v_vars]. f_equal.
      change (Some (see_coll (heap w) c)) with (option_map (see_coll (heap w)) (Some c)). rewrite <- put_map, <- E, put_same. reflexivity.
    + cbn [see_coll snd] in C3. destruct (no_null (map (look (heap w)) (c_quads d))) eqn:NN; [|discriminate]. destruct (no_null_values _ NN) as [vs V].
      destruct (free_all_ok (c_quads c) (heap w) (fun n => IC i c n E)) as (H1 & F1 & F2 & F3 & F4).
      assert (K : kept w i H1) by (eapply (kept_free w i c H1 (c_quads c)); eauto). destruct K as [K1 K2].
      assert (Gk : forall j' d', j' <> i -> nth j' (colls w) None = Some d' -> goods H1 (c_quads d')).
      { intros j' d' Nj D. apply goods_live. intros n. specialize (F2 n). specialize (I n). pose proof (tot_two n i j' (colls w) ltac:(auto)) as T.
        rewrite E, D in T. simpl in T. lia. }
      assert (Gv : goods H1 (vars w)).
      { apply goods_live. intros n. specialize (F2 n). specialize (I n). pose proof (tot_in n i (colls w)) as T. rewrite E in T. simpl in T. lia. }
      eapply done0.
      * intros fuel. cbn [step]. unfold coll_at. rewrite E, E2. cbn [bind]. rewrite (proj2 (Nat.eqb_neq i j) Nij), F1. cbn [bind].
        rewrite (dup_ok _ _ vs); [|rewrite (K1 j); auto|apply (Gk j); auto]. cbn [bind]. reflexivity.
      * rewrite <- C3. f_equal. unfold set_coll, with_heap. cbn [heap colls vars]. rewrite see_after.
        -- f_equal. f_equal. cbn [option_map]. unfold see_coll. cbn [c_rows c_quads]. rewrite looks_new, V. reflexivity.
        -- split.
           ++ intros j' d' Nj D. rewrite looks_app by (apply (Gk j'); auto). apply (K1 j'); auto.
           ++ rewrite looks_app by auto. exact K2.
      * unfold set_coll, with_heap. cbn [heap colls vars]. apply (inv_after w i (Some c)); auto. intros n. cbn [qs c_quads].
        rewrite live_app. specialize (F2 n). lia.
  - (* Destroy *) apply obind_some in C as [x [C1 C2]]. apply there_some in C1 as [c [E ->]].
    assert (L : i < length (colls w)) by (eapply nth_some_lt; eauto). rewrite upd_see in C2 by auto.
    destruct (free_all_ok (c_quads c) (heap w) (fun n => IC i c n E)) as (H1 & F1 & F2 & F3 & F4).
    eapply done0.
    + intros fuel. cbn [step]. unfold coll_at. rewrite E. cbn [bind]. rewrite F1. cbn [bind]. reflexivity.
    + rewrite <- C2. f_equal. unfold set_coll, with_heap. cbn [heap colls vars]. rewrite see_after; [reflexivity|].
      eapply (kept_free w i c H1 (c_quads c)); eauto.
    + unfold set_coll, with_heap. cbn [heap colls vars]. apply (inv_after w i (Some c)); auto. intros n. cbn [qs]. rewrite times_seq_nil. specialize (F2 n). lia.
  - (* AddRow *) apply obind_some in C as [x [C1 C2]]. apply there_some in C1 as [c [E ->]].
    assert (L : i < length (colls w)) by (eapply nth_some_lt; eauto). rewrite upd_see in C2 by auto.
    eapply done0; [intros; cbn [step]; unfold coll_at; rewrite E; cbn [bind]; reflexivity| |].
    + rewrite <- C2. f_equal. unfold set_coll. rewrite see_after by (apply kept_same). reflexivity.
    + unfold set_coll. apply (inv_after w i (Some c)); auto.
  - (* InsVal *) apply obind_some in C as [x [C1 C2]]. apply there_some in C1 as [c [E ->]].
    destruct (push_ok w i c v I E) as [P1 P2]. eapply done0; [intros; cbn [step]; unfold coll_at; rewrite E; cbn [bind alloc]; reflexivity| |exact P2].
    etransitivity; [symmetry; exact P1|exact C2].
  - (* InsRef *) apply obind_some in C as [x [C1 C2]]. apply there_some in C1 as [c [E ->]].
    apply obind_some in C2 as [y [C2 C3]]. apply there_some in C2 as [d [E2 ->]]. apply obind_some in C3 as [v [C3 C4]].
    cbn [see_coll snd] in C3. destruct (nth_map_look _ _ _ _ C3) as (n & E3 & E4).
    destruct (push_ok w i c v I E) as [P1 P2].
    eapply done0; [intros; cbn [step]; unfold coll_at, quad_at; rewrite E2; cbn [bind]; rewrite E3; cbn [bind deref]; rewrite E4; cbn [bind]; rewrite E; cbn [bind alloc]; reflexivity| |exact P2].
    etransitivity; [symmetry; exact P1|exact C4].
  - (* NewCut *) eapply done0; [intros; reflexivity| |].
    + rewrite <- C. unfold see; cbn [heap colls vars v_colls v_vars]. destruct (kept_app w (length (colls w)) [Some v] I) as [K1 K2].
      rewrite map_app, K2. rewrite (see_all (heap w)) by (intros j d Ej; eapply looks_app; eauto). cbn [map]. rewrite look_new. reflexivity.
    + intros n. cbn [heap colls vars]. rewrite live_alloc, times_app, times_cons, times_seq_nil. specialize (I n). simpl. lia.
  - (* DelCut *) apply obind_some in C as [l [C1 C2]].
    assert (L : x < length (vars w)).
    { unfold set_nth in C1. cbn [see v_vars] in C1. rewrite map_length in C1. destruct (Nat.ltb_spec x (length (vars w))); auto. discriminate. }
    rewrite set_nth_put in C1 by (cbn [see v_vars]; rewrite map_length; auto). injection C1 as <-.
    destruct (nth_error (vars w) x) as [p|] eqn:P; [|apply nth_error_None in P; lia].
    assert (Pn : forall n, pone n p <= times n (vars w)) by (intros n; pose proof (times_put_none n x _ _ P); lia).
    destruct (free_ok p (heap w)) as (H1 & F1 & F2 & F3 & F4).
    { apply (goods_live (heap w) (vars w)); [intros n; apply inv_vars; auto|eapply nth_error_In; eauto]. }
    assert (Z : forall n, times n [p] = 0 -> nth n H1 None = nth n (heap w) None) by (intros n; rewrite times_cons, times_seq_nil; intros; apply F3; lia).
    eapply done0.
    + intros fuel. cbn [step]. unfold var_at. rewrite P. cbn [bind]. rewrite F1. cbn [bind]. reflexivity.
    + rewrite <- C2. unfold see; cbn [heap colls vars v_colls v_vars]. f_equal. f_equal.
      * apply see_all. intros j d Ej. apply (looks_free (heap w) H1 [p]); auto. intros n. rewrite times_cons, times_seq_nil. specialize (Pn n). specialize (I n).
        pose proof (tot_in n j (colls w)) as T. rewrite Ej in T. simpl in T. pose proof (live_le (heap w) n). lia.
      * rewrite <- look_put_var. apply (looks_free (heap w) H1 [p]); auto. intros n. rewrite times_cons, times_seq_nil.
        pose proof (times_put_none n x _ _ P). specialize (I n). pose proof (live_le (heap w) n). lia.
    + intros n. cbn [heap colls vars]. pose proof (times_put_none n x _ _ P). specialize (I n). specialize (F2 n). lia.
  - (* InsPtr *) apply obind_some in C as [y [C1 C2]]. apply there_some in C1 as [c [E ->]].
    apply obind_some in C2 as [u [C2 C3]]. apply obind_some in C3 as [l [C3 C4]]. apply obind_some in C4 as [m [C4 C5]].
    assert (L : i < length (colls w)) by (eapply nth_some_lt; eauto). cbn [see v_vars] in C2. rewrite nth_error_map in C2.
    destruct (nth_error (vars w) x) as [p|] eqn:P; [|discriminate]. injection C2 as <-.
    assert (Lx : x < length (vars w)) by (apply nth_error_Some; congruence).
    rewrite set_nth_put in C3 by (cbn [see v_vars]; rewrite map_length; auto). injection C3 as <-.
    rewrite set_nth_put in C4 by (cbn [see v_colls]; rewrite map_length; auto). injection C4 as <-.
    eapply done0.
    + intros fuel. cbn [step]. unfold var_at, coll_at. rewrite P, E. cbn [bind]. reflexivity.
    + rewrite <- C5. unfold see; cbn [heap colls vars v_colls v_vars]. f_equal. f_equal.
      * rewrite put_map. f_equal. cbn [option_map see_coll c_rows c_quads fst snd]. f_equal. unfold see_coll. cbn [c_rows c_quads fst snd]. rewrite map_app. reflexivity.
      * apply look_put_var.
    + intros n. cbn [heap colls vars]. pose proof (times_put_none n x _ _ P). specialize (I n).
      pose proof (tot_put n i (Some (mkColl (c_rows c) (c_quads c ++ [p]))) (colls w) L) as T. rewrite E in T. cbn [qs c_quads] in T.
      rewrite times_app, times_cons, times_seq_nil in T. lia.
  - (* InsAll *) apply obind_some in C as [x [C1 C2]]. apply there_some in C1 as [c [E ->]].
    apply obind_some in C2 as [y [C2 C3]]. apply there_some in C2 as [d [E2 ->]].
    assert (L : i < length (colls w)) by (eapply nth_some_lt; eauto). rewrite upd_see in C3 by auto. cbn [see_coll fst snd] in C3.
    destruct (no_null (map (look (heap w)) (c_quads d))) eqn:NN; [|discriminate]. destruct (no_null_values _ NN) as [vs V].
    destruct (Nat.eq_dec i j) as [<-|Nij].
    + rewrite E in E2. injection E2 as <-.
      assert (Z : c_quads c = []).
      { specialize (NS i (see_coll (heap w) c) eq_refl). rewrite there_see, E in NS. specialize (NS eq_refl). cbn [see_coll snd] in NS. destruct (c_quads c); [auto|discriminate]. }
      exists 1. eexists. split.
      { intros [|f] F; [lia|]. cbn [step]. unfold coll_at at 1 2. rewrite E. cbn [bind ins_loop]. unfold coll_at, set_coll. cbn [heap colls vars].
        rewrite put_nth, Nat.eqb_refl, (proj2 (Nat.ltb_lt _ _) L). cbn [andb bind c_quads]. rewrite Z. cbn [length Nat.ltb Nat.leb]. reflexivity. }
      split.
      * injection C3 as <-. rewrite see_after by (apply kept_same). rewrite Z. cbn. reflexivity.
      * apply (inv_after w i (Some c)); auto. intros n. cbn [qs c_quads]. rewrite Z. reflexivity.
    + exists (S (length vs)). eexists. split.
      { intros fuel F. cbn [step]. unfold coll_at at 1 2. rewrite E, E2. cbn [bind].
        rewrite (ins_loop_ok vs 0 i j _ (mkColl (c_rows c ++ c_rows d) (c_quads c)) d fuel); auto.
        - unfold set_coll. cbn [heap colls vars]. rewrite put_nth, Nat.eqb_refl, (proj2 (Nat.ltb_lt _ _) L). reflexivity.
        - unfold set_coll. cbn [heap colls vars]. rewrite put_nth, (proj2 (Nat.eqb_neq i j) Nij). exact E2.
        - apply (G j); auto. }
      unfold set_coll. cbn [heap colls vars c_rows c_quads]. rewrite put_put. split.
      * injection C3 as <-. rewrite see_after by (apply kept_app; auto). f_equal. f_equal. cbn [option_map]. unfold see_coll at 1. cbn [c_rows c_quads].
        rewrite map_app, looks_new, looks_app by (eapply G; eauto). rewrite V. reflexivity.
      * apply (inv_after w i (Some c)); auto. intros n. cbn [qs c_quads]. rewrite live_app, times_app. lia.
  - (* Erase *) apply obind_some in C as [x [C1 C2]]. apply there_some in C1 as [c [E ->]]. apply obind_some in C2 as [l [C2 C3]]. cbn [see_coll fst snd] in C2, C3.
    assert (L : i < length (colls w)) by (eapply nth_some_lt; eauto). rewrite upd_see in C3 by auto.
    unfold del_nth in C2. rewrite map_length in C2. destruct (Nat.ltb_spec k (length (c_quads c))) as [Lk|]; [|discriminate]. injection C2 as <-.
    destruct (nth_error (c_quads c) k) as [p|] eqn:P; [|apply nth_error_None in P; lia].
    assert (T : forall n, times n (firstn k (c_quads c) ++ skipn (S k) (c_quads c)) + pone n p = times n (c_quads c)).
    { intros n. rewrite (split_at _ _ _ P) at 3. rewrite !times_app, times_cons. lia. }
    destruct (free_ok p (heap w)) as (H1 & F1 & F2 & F3 & F4). { apply (G i c E). eapply nth_error_In; eauto. }
    assert (Z : forall n, times n [p] = 0 -> nth n H1 None = nth n (heap w) None) by (intros n; rewrite times_cons, times_seq_nil; intros; apply F3; lia).
    eapply done0.
    + intros fuel. cbn [step]. unfold coll_at, quad_at. rewrite E. cbn [bind]. rewrite P. cbn [bind]. rewrite F1. cbn [bind]. reflexivity.
    + rewrite <- C3. f_equal. unfold set_coll, with_heap. cbn [heap colls vars]. rewrite see_after.
      * f_equal. f_equal. cbn [option_map]. unfold see_coll. cbn [c_rows c_quads].
        rewrite (looks_free (heap w) H1 [p]); auto.
        -- rewrite map_app, <- firstn_map, <- skipn_map. reflexivity.
        -- intros n. rewrite times_cons, times_seq_nil. specialize (T n). specialize (IC i c n E). pose proof (live_le (heap w) n). lia.
      * apply (kept_free w i c H1 [p]); auto. intros n. rewrite times_cons, times_seq_nil. specialize (T n). lia.
    + unfold set_coll, with_heap. cbn [heap colls vars]. apply (inv_after w i (Some c)); auto. intros n. cbn [qs c_quads]. specialize (T n). specialize (F2 n). lia.
  - (* Write *) apply obind_some in C as [x [C1 C2]]. apply there_some in C1 as [c [E ->]]. apply obind_some in C2 as [u [C2 C3]].
    apply obind_some in C3 as [l [C3 C4]]. cbn [see_coll fst snd] in C2, C3, C4.
    assert (L : i < length (colls w)) by (eapply nth_some_lt; eauto). rewrite upd_see in C4 by auto.
    destruct (nth_map_look _ _ _ _ C2) as (n & E3 & E4).
    rewrite set_nth_put in C3 by (rewrite map_length; apply nth_error_Some; congruence). injection C3 as <-.
    assert (Ln : n < length (heap w)) by (eapply nth_some_lt; eauto).
    assert (Tn : 1 <= times n (c_quads c)) by (apply times_pos; eapply nth_error_In; eauto).
    eapply done0.
    + intros fuel. cbn [step]. unfold coll_at, quad_at. rewrite E. cbn [bind]. rewrite E3. cbn [bind deref]. rewrite E4. cbn [bind]. reflexivity.
    + rewrite <- C4. f_equal.
      assert (Pc : put i (Some c) (colls w) = colls w) by (rewrite <- E; apply put_same).
      unfold with_heap. rewrite <- Pc at 1. rewrite see_after.
      * f_equal. f_equal. cbn [option_map]. unfold see_coll. f_equal. f_equal. apply look_write; auto.
        specialize (IC i c n E). pose proof (live_le (heap w) n). lia.
      * apply (kept_free w i c (put n (Some v) (heap w)) (c_quads c)); auto. intros m Tm. rewrite put_nth. destruct (Nat.eqb_spec n m) as [->|]; auto. lia.
    + intros m. unfold with_heap. cbn [heap colls vars]. specialize (I m). rewrite I. unfold live. rewrite put_nth.
      destruct (Nat.eqb_spec n m) as [<-|]; auto. rewrite (proj2 (Nat.ltb_lt _ _) Ln), E4. reflexivity.
Qed.

Lemma coll_at_ok {A R} (w : world A R) i c : coll_at i w = Ok c -> nth i (colls w) None = Some c.
Proof. unfold coll_at. destruct (nth i (colls w) None); [congruence|discriminate]. Qed.
Lemma upd_some {A R} (w : world A R) i c x : nth i (colls w) None = Some c -> exists s, upd_coll i x (see w) = Some s.
Proof. intros E. rewrite upd_see; eauto. eapply nth_some_lt; eauto. Qed.
Lemma there_is {A R} (w : world A R) i c : nth i (colls w) None = Some c -> there i (see w) = Some (see_coll (heap w) c).
Proof. intros E. rewrite there_see, E. reflexivity. Qed.
Lemma step_calls {A R} fuel (w w' : world A R) o : Inv w -> step fuel w o = Ok w' -> (exists s', calls (see w) o = Some s') /\ not_self (see w) o.
Proof.
  intros I S. pose proof (fun i c => inv_goods w i c I) as G.
  assert (NS : (forall i, o <> InsAll i i) -> not_self (see w) o) by (intros N i c E; destruct (N i E)).
  destruct o as [|i|i j|i|i r|i v|i j k|v|x|i x|i j|i k|i k v]; cbn [step] in S; cbn [calls];
  try (apply bind_ok in S as [c [Ec S]]); try (apply coll_at_ok in Ec; rewrite (there_is _ _ _ Ec); cbn [obind]);
  try (split; [|apply NS; discriminate]).
  - eauto.
  - apply bind_ok in S as [[H ns] [D _]]. apply dup_null in D; [|eauto]. cbn [see_coll snd]. rewrite D. eauto.
  - apply bind_ok in S as [d [Ed S]]. apply coll_at_ok in Ed. rewrite (there_is _ _ _ Ed). cbn [obind].
    destruct (Nat.eqb_spec i j) as [->|N]; cbn [orb]; [eapply upd_some; eauto|].
    apply bind_ok in S as [H1 [F S]]. apply bind_ok in S as [[H ns] [D _]].
    destruct (free_all_ok (c_quads c) (heap w) (fun n => inv_coll w i c n I Ec)) as (H1' & F1 & F2 & F3 & F4). rewrite F in F1. injection F1 as <-.
    assert (K : kept w i H1) by (eapply (kept_free w i c H1 (c_quads c)); eauto). destruct K as [K1 K2].
    apply dup_null in D.
    + rewrite (K1 j) in D by auto. cbn [see_coll snd]. rewrite D. eapply upd_some; eauto.
    + apply goods_live. intros n. specialize (F2 n). specialize (I n). pose proof (tot_two n i j (colls w) ltac:(auto)) as T.
      rewrite Ec, Ed in T. simpl in T. lia.
  - eapply upd_some; eauto.
  - eapply upd_some; eauto.
  - eapply upd_some; eauto.
  - apply bind_ok in S as [p [P S]]. apply bind_ok in S as [v [V S]]. apply bind_ok in S as [d [Ed S]]. apply coll_at_ok in Ed.
    rewrite (there_is _ _ _ Ed). cbn [obind see_coll snd fst].
    unfold quad_at in P. destruct (nth_error (c_quads c) k) as [q|] eqn:Q; [|discriminate]. injection P as ->.
    assert (X : nth k (map (look (heap w)) (c_quads c)) None = Some v).
    { change None with (look (heap w) None). rewrite map_nth. erewrite nth_error_nth by eauto. destruct p as [n|]; [|discriminate].
      cbn [deref look] in *. destruct (nth n (heap w) None); [congruence|discriminate]. }
    rewrite X. cbn [obind]. eapply upd_some; eauto.
  - eauto.
  - unfold var_at in Ec. destruct (nth_error (vars w) x) as [q|] eqn:Q; [|discriminate].
    rewrite set_nth_put; [cbn; eauto|]. cbn [see v_vars]. rewrite map_length. apply nth_error_Some. congruence.
  - apply bind_ok in S as [d [Ed S]]. apply coll_at_ok in Ed. rewrite (there_is _ _ _ Ed). cbn [obind].
    unfold var_at in Ec. destruct (nth_error (vars w) x) as [q|] eqn:Q; [|discriminate]. cbn [see v_vars]. rewrite nth_error_map, Q. cbn [option_map obind].
    rewrite set_nth_put; [|rewrite map_length; apply nth_error_Some; congruence]. cbn [obind].
    rewrite set_nth_put; [cbn; eauto|]. cbn [see v_colls]. rewrite map_length. eapply nth_some_lt; eauto.
  - apply bind_ok in S as [d [Ed S]]. apply coll_at_ok in Ed. rewrite (there_is _ _ _ Ed). cbn [obind see_coll snd fst].
    assert (L : i < length (colls w)) by (eapply nth_some_lt; eauto).
    assert (X : nth i (colls (set_coll i (Some (mkColl (c_rows c ++ c_rows d) (c_quads c))) w)) None = Some (mkColl (c_rows c ++ c_rows d) (c_quads c))).
    { unfold set_coll. cbn [colls]. rewrite put_nth, Nat.eqb_refl, (proj2 (Nat.ltb_lt _ _) L). reflexivity. }
    destruct (Nat.eq_dec i j) as [<-|Nij].
    + rewrite Ec in Ed. injection Ed as <-.
      assert (Z : c_quads c = []).
      { destruct (c_quads c) as [|p q] eqn:Q; auto. exfalso. refine (ins_loop_self fuel 0 i _ w' _ X _ S). cbn. lia. }
      rewrite Z. cbn [map no_null forallb]. split; [eapply upd_some; eauto|].
      intros i' c' E' T'. injection E' as <-. rewrite there_see, Ec in T'. injection T' as <-. cbn. rewrite Z. reflexivity.
    + split; [|apply NS; intros i' E'; injection E' as -> ->; auto].
      assert (Y : nth j (colls (set_coll i (Some (mkColl (c_rows c ++ c_rows d) (c_quads c))) w)) None = Some d).
      { unfold set_coll. cbn [colls]. rewrite put_nth, (proj2 (Nat.eqb_neq i j) Nij). exact Ed. }
      pose proof (ins_loop_null fuel 0 i j _ w' d _ Nij Y X (G j d Ed) S) as NN. cbn [skipn] in NN. unfold set_coll in NN. cbn [heap] in NN. rewrite NN. eapply upd_some; eauto.
  - apply bind_ok in S as [p [P S]]. cbn [see_coll snd fst]. unfold quad_at in P. destruct (nth_error (c_quads c) k) as [q|] eqn:Q; [|discriminate].
    unfold del_nth. rewrite map_length. assert (L : k < length (c_quads c)) by (apply nth_error_Some; congruence). rewrite (proj2 (Nat.ltb_lt _ _) L).
    cbn [obind]. eapply upd_some; eauto.
  - apply bind_ok in S as [p [P S]]. destruct p as [n|]; [|discriminate]. apply bind_ok in S as [u [U S]].
    cbn [see_coll snd fst]. unfold quad_at in P. destruct (nth_error (c_quads c) k) as [q|] eqn:Q; [|discriminate]. injection P as ->.
    assert (X : nth k (map (look (heap w)) (c_quads c)) None = Some u).
    { change None with (look (heap w) None). rewrite map_nth. erewrite nth_error_nth by eauto.
      cbn [deref look] in *. destruct (nth n (heap w) None); [congruence|discriminate]. }
    rewrite X. cbn [obind]. rewrite set_nth_put; [|rewrite map_length; apply nth_error_Some; congruence]. cbn [obind]. eapply upd_some; eauto.
Qed.
Lemma ins_loop_mono {A R} f : forall f' k i j (w w' : world A R), f <= f' -> ins_loop f k i j w = Ok w' -> ins_loop f' k i j w = Ok w'.
Proof.
  induction f as [|f IH]; intros [|f'] k i j w w' L E; try discriminate; try lia. cbn [ins_loop] in *.
  apply bind_ok in E as [cj [-> E]]. cbn [bind]. destruct (Nat.ltb k (length (c_quads cj))); auto.
  apply bind_ok in E as [p [-> E]]. apply bind_ok in E as [v [V E]]. cbn [bind]. rewrite V. cbn [bind]. apply bind_ok in E as [ci [-> E]]. cbn [bind alloc] in *. apply IH; auto. lia.
Qed.
Lemma step_mono {A R} f f' (w w' : world A R) o : f <= f' -> step f w o = Ok w' -> step f' w o = Ok w'.
Proof.
  intros L. destruct o; auto. cbn [step]. destruct (coll_at i w); cbn [bind]; try discriminate. destruct (coll_at j w); cbn [bind]; try discriminate.
  apply ins_loop_mono; auto.
Qed.
Lemma sim_back {A R} fuel (w w' : world A R) o : Inv w -> step fuel w o = Ok w' -> calls (see w) o = Some (see w') /\ not_self (see w) o /\ Inv w'.
Proof.
  intros I S. destruct (step_calls fuel w w' o I S) as [[s' C] N]. destruct (sim w o s' I C N) as (M & w2 & S2 & E2 & I2).
  assert (w2 = w').
  { specialize (S2 (M + fuel) ltac:(lia)). apply (step_mono fuel (M + fuel)) in S; [|lia]. congruence. }
  subst. auto.
Qed.

(** ** Sequences of calls *)
Lemma run_sim {A R} (ops : list (op A R)) : forall w s, Inv w -> all_calls ops (see w) = Some s -> never_self ops (see w) ->
  exists N, forall fuel, N <= fuel -> exists w', run fuel ops w = Ok w' /\ see w' = s.
Proof.
  induction ops as [|o t IH]; intros w s I C N; cbn [all_calls never_self] in *.
  - injection C as <-. exists 0. intros fuel _. exists w. auto.
  - apply obind_some in C as [s1 [C1 C2]]. destruct N as [N1 N2]. rewrite C1 in N2.
    destruct (sim w o s1 I C1 N1) as (M & w1 & S1 & E1 & I1). subst s1.
    destruct (IH w1 s I1 C2 N2) as [M2 R2]. exists (M + M2). intros fuel L. destruct (R2 fuel ltac:(lia)) as (w' & R' & E').
    exists w'. cbn [run]. rewrite S1 by lia. auto.
Qed.
Lemma run_back {A R} fuel (ops : list (op A R)) : forall w w', Inv w -> run fuel ops w = Ok w' ->
  all_calls ops (see w) = Some (see w') /\ never_self ops (see w) /\ Inv w'.
Proof.
  induction ops as [|o t IH]; intros w w' I E; cbn [run all_calls never_self] in *.
  - injection E as <-. auto.
  - apply bind_ok in E as [w1 [S E]]. destruct (sim_back fuel w w1 o I S) as (C & N & I1). destruct (IH w1 w' I1 E) as (C2 & N2 & I2).
    rewrite C. cbn [obind]. auto.
Qed.
Lemma inv_run {A R} fuel (ops : list (op A R)) w : run fuel ops start = Ok w -> Inv w.
Proof. intros E. eapply run_back in E; [tauto|apply inv_start]. Qed.
Lemma all_ptrs_times {A R} (w : world A R) n : times n (all_ptrs w) = tot n (colls w) + times n (vars w).
Proof. unfold all_ptrs. rewrite times_app. reflexivity. Qed.

(** The frame of the specification. *)
Lemma calls_frame {A R} (s s' : seen A R) o i : calls s o = Some s' -> changes o <> Some i -> i < length (v_colls s) -> nth i (v_colls s') None = nth i (v_colls s) None.
Proof.
  intros C N L.
  assert (SN : forall j (x : option (list R * list (option A))) l l', set_nth j x l = Some l' -> j <> i -> nth i l' None = nth i l None).
  { intros j x l l' E D. destruct (le_lt_dec (length l) j) as [Lj|Lj].
    { unfold set_nth in E. rewrite (proj2 (Nat.ltb_ge _ _) Lj) in E. discriminate. }
    rewrite set_nth_put in E by auto. injection E as <-. rewrite put_nth. rewrite (proj2 (Nat.eqb_neq j i) D). reflexivity. }
  assert (UN : forall j x s1, upd_coll j x s = Some s1 -> j <> i -> nth i (v_colls s1) None = nth i (v_colls s) None).
  { intros j x s1 E D. unfold upd_coll in E. apply obind_some in E as [l [E1 E2]]. injection E2 as <-. cbn. eauto. }
  destruct o as [|a|a b|a|a r|a v|a b k|v|x|a x|a b|a k|a k v]; cbn [calls changes] in *;
  repeat match type of C with obind _ _ = _ => let y := fresh "y" in let E := fresh "E" in apply obind_some in C as [y [E C]] end;
  try (assert (D : a <> i) by congruence); try (eapply UN; eauto; fail).
  - injection C as <-. cbn. apply app_nth1; auto.
  - destruct (no_null (snd y)); [|discriminate]. injection C as <-. cbn. apply app_nth1; auto.
  - destruct (Nat.eqb a b || no_null (snd y0)); [|discriminate]. eauto.
  - injection C as <-. reflexivity.
  - injection C as <-. reflexivity.
  - injection C as <-. cbn. eauto.
  - destruct (no_null (snd y0)); [|discriminate]. eauto.
Qed.
