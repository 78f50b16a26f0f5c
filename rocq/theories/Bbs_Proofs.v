(** Proofs about the set-up of a run. *)
From Verif Require Import Base Arr Bbs_Model Bbs_Spec.
#[local] Open Scope Z_scope.

Lemma mapM_ok {A B} (f : A -> outcome B) g l : (forall x, In x l -> f x = Ok (g x)) -> mapM f l = Ok (map g l).
Proof.
  induction l as [|x t IH]; intros F; [reflexivity|]. cbn [mapM map]. rewrite (F x (or_introl eq_refl)). cbn [bind].
  rewrite IH; [reflexivity|]. intros y Y. apply F. now right.
Qed.
Lemma mapM_app {A B} (f : A -> outcome B) l1 l2 : mapM f (l1 ++ l2) = do a <- mapM f l1; do b <- mapM f l2; Ok (a ++ b).
Proof.
  induction l1 as [|x t IH]; cbn [mapM app bind]; [destruct (mapM f l2); reflexivity|]. destruct (f x); try reflexivity. cbn [bind]. rewrite IH.
  destruct (mapM f t); try reflexivity. cbn [bind]. destruct (mapM f l2); reflexivity.
Qed.
Lemma rd_nth {A} j (l : list A) d : (j < length l)%nat -> rd j l = Ok (nth j l d).
Proof. intros X. unfold rd. rewrite (nth_error_nth' l d X). reflexivity. Qed.

(** ** Integer columns *)
Lemma cols_eq {A} (f : nat -> A) cols : forall k,
  flat_map (fun '(j, b) => if b : bool then [f j] else []) (combine (seq k (length cols)) cols) =
  map f (filter (fun j => nth (j - k) cols false) (seq k (length cols))).
Proof.
  induction cols as [|b t IH]; intros k; [reflexivity|]. cbn [length seq combine flat_map filter]. rewrite IH.
  replace (nth (k - k) (b :: t) false) with b by (replace (k - k)%nat with O by lia; reflexivity).
  assert (E : filter (fun j => nth (j - k) (b :: t) false) (seq (S k) (length t)) = filter (fun j => nth (j - S k) t false) (seq (S k) (length t))).
  { apply filter_ext_in. intros j J. apply in_seq in J. replace (j - k)%nat with (S (j - S k)) by lia. reflexivity. }
  rewrite E. destruct b; reflexivity.
Qed.
Definition wanted_at (u : setup) (j : nat) : obj :=
  OInt j (at_col (u_prio u) j 1000) (at_col (u_dir u) j 0) (match u_up u, u_down u with Some a, Some d => Some (nth j a 0%Q, nth j d 0%Q) | _, _ => None end).
Lemma wanted_ints_eq u : wanted_ints u = map (wanted_at u) (int_cols u).
Proof.
  transitivity (flat_map (fun '(j, b) => if b : bool then [wanted_at u j] else []) (combine (seq 0 (length (u_cols u))) (u_cols u))); [reflexivity|].
  unfold int_cols. rewrite (cols_eq (wanted_at u) (u_cols u) 0). f_equal. apply filter_ext. intros j. now rewrite Nat.sub_0_r.
Qed.
Lemma int_cols_lt u j : In j (int_cols u) -> (j < length (u_cols u))%nat.
Proof. unfold int_cols. rewrite filter_In, in_seq. lia. Qed.
Lemma int_cols_le u : (length (int_cols u) <= length (u_cols u))%nat.
Proof.
  unfold int_cols. assert (G : forall l, (length (filter (fun j => nth j (u_cols u) false) l) <= length l)%nat).
  { induction l as [|x t IH]; cbn; [lia|]. destruct (nth x (u_cols u) false); cbn; lia. }
  specialize (G (seq 0 (length (u_cols u)))). rewrite seq_length in G. exact G.
Qed.
Lemma give_ok u j : sized u -> (u_up u <> None -> u_down u <> None) -> (j < length (u_cols u))%nat ->
  give u (OInt j 1000 0 (if given (u_up u) then Some (0, 0)%Q else None)) = Ok (wanted_at u j).
Proof.
  intros (P & D & U & W & _) UD J. unfold give, wanted_at, at_col. destruct (u_prio u) as [lp|].
  2: destruct (u_dir u) as [ld|].
  1: destruct (u_dir u) as [ld|]; rewrite (rd_nth j lp 1000) by (cbn in P; lia).
  1,3: rewrite (rd_nth j ld 0) by (cbn in D; lia).
  all: cbn [bind]; destruct (u_up u) as [a|]; cbn [given bind]; try (destruct (u_down u); reflexivity).
  all: destruct (u_down u) as [d|]; [|exfalso; apply UD; congruence].
  all: rewrite (rd_nth j a 0%Q) by (cbn in U; lia); cbn [bind]; rewrite (rd_nth j d 0%Q) by (cbn in W; lia); reflexivity.
Qed.
Definition others (old : list obj) : list obj := filter (fun o => negb (is_int o)) old.
Lemma integers_ok u old : sized u -> (u_up u <> None -> u_down u <> None) ->
  (others old = [] \/ (u_prio u = None /\ u_dir u = None /\ u_up u = None)) -> integers u old = Ok (wanted_ints u ++ others old).
Proof.
  intros SZ UD OT. unfold integers, findIntegers. fold (others old). rewrite wanted_ints_eq.
  destruct (given (u_prio u) || given (u_dir u) || given (u_up u))%bool eqn:G.
  - destruct OT as [-> |(E1 & E2 & E3)]; [|rewrite E1, E2, E3 in G; discriminate G]. rewrite !app_nil_r.
    rewrite <- (map_map (fun j => j) (wanted_at u)), map_id. 
    assert (E : forall l, (forall j, In j l -> (j < length (u_cols u))%nat) ->
              mapM (give u) (map (fun j => OInt j 1000 0 (if given (u_up u) then Some (0, 0)%Q else None)) l) = Ok (map (wanted_at u) l)).
    { induction l as [|j t IH]; intros B; [reflexivity|]. cbn [map mapM]. rewrite (give_ok u j SZ UD (B j (or_introl eq_refl))). cbn [bind].
      rewrite IH; [reflexivity|]. intros i K. apply B. now right. }
    apply E. intros j. apply int_cols_lt.
  - apply orb_false_iff in G. destruct G as (G & G3). apply orb_false_iff in G. destruct G as (G1 & G2). do 2 f_equal. apply map_ext. intros j. unfold wanted_at, at_col.
    destruct (u_prio u); [discriminate|]. destruct (u_dir u); [discriminate|]. destruct (u_up u); [discriminate|]. reflexivity.
Qed.
Lemma integers_crash u old o rest : sized u -> (u_up u <> None -> u_down u <> None) ->
  others old = o :: rest -> col_of o = None -> (forall k c, o <> OOsi k c) -> (u_prio u <> None \/ u_dir u <> None) -> integers u old = OutOfBounds.
Proof.
  intros SZ UD OT C NO PD. unfold integers, findIntegers. fold (others old).
  assert (G : (given (u_prio u) || given (u_dir u))%bool = true) by (destruct (u_prio u), (u_dir u); cbn; destruct PD; congruence).
  rewrite G. cbn [orb]. rewrite mapM_app, OT.
  assert (E : forall l, (forall j, In j l -> (j < length (u_cols u))%nat) ->
            mapM (give u) (map (fun j => OInt j 1000 0 (if given (u_up u) then Some (0, 0)%Q else None)) l) = Ok (map (wanted_at u) l)).
  { induction l as [|j t IH]; intros B; [reflexivity|]. cbn [map mapM]. rewrite (give_ok u j SZ UD (B j (or_introl eq_refl))). cbn [bind].
    rewrite IH; [reflexivity|]. intros i K. apply B. now right. }
  rewrite (E (int_cols u) (int_cols_lt u)). cbn [bind mapM].
  assert (B : give u o = OutOfBounds) by (destruct o as [? ? ? ?|? ? ? ? ?|?|? ?]; [discriminate C| | |exfalso; eapply NO; reflexivity]; cbn [give]; rewrite G; reflexivity).
  rewrite B. reflexivity.
Qed.

(** ** SOS constraints *)
Lemma nonzero_spec k : forall l, (k <= length l)%nat -> exists b, nonzero k l = Ok b /\ (b = false -> forall i, (i < k)%nat -> nth i l 0 = 0).
Proof.
  induction k as [|k IH]; intros l X; [exists false; split; [reflexivity|intros; lia]|]. destruct l as [|z t]; [cbn in X; lia|]. cbn [nonzero].
  destruct (Z.eqb_spec z 0) as [-> |N].
  - destruct (IH t) as (b & E & F); [cbn in X; lia|]. exists b. split; [exact E|]. intros B [|i] I; [reflexivity|]. cbn. apply F; [exact B|lia].
  - exists true. split; [reflexivity|discriminate].
Qed.
Definition sos_at (q : sosinfo) (i : nat) : obj :=
  let s := nth i (so_starts q) O in let e := nth (S i) (so_starts q) O in
  OSos (between s e (so_ind q)) (between s e (so_wts q)) i (nth i (so_types q) 0) (match at_col (so_prio q) i 0 with 0 => 10 | z => z end).
Lemma slice_eq {A} s e (l : list A) : (s <= e)%nat -> firstn (e - s) (skipn s l) = between s e l.
Proof. intros X. unfold between. rewrite firstn_skipn_comm. now replace (s + (e - s))%nat with e by lia. Qed.
Lemma one_sos_ok q has i : sos_ok q -> (i < so_num q)%nat -> (has = false -> at_col (so_prio q) i 0 = 0) -> one_sos q has i = Ok (sos_at q i).
Proof.
  intros (S1 & T1 & P1 & M & B & W1) I HF. unfold one_sos, sos_at.
  rewrite (rd_nth i (so_starts q) O) by lia. cbn [bind]. rewrite (rd_nth (S i) (so_starts q) O) by lia. cbn [bind].
  pose proof (M i I) as LE. pose proof (B (S i) ltac:(lia)) as BE.
  rewrite (proj2 (Nat.ltb_ge _ _) LE), (proj2 (Nat.ltb_ge _ _) BE), W1, (proj2 (Nat.ltb_ge _ _) BE). cbn [orb].
  rewrite (rd_nth i (so_types q) 0) by lia. cbn [bind]. rewrite !slice_eq by exact LE.
  assert (E : (if has then match so_prio q with Some l => do z <- rd i l; Ok (if Z.eqb z 0 then 10 else z) | None => Ok 10 end else Ok 10) =
              Ok (match at_col (so_prio q) i 0 with 0 => 10 | z => z end)).
  { destruct has.
    - destruct (so_prio q) as [l|]; [|reflexivity]. cbn in P1. cbn [at_col]. rewrite (rd_nth i l 0) by lia. cbn [bind]. destruct (nth i l 0); reflexivity.
    - rewrite (HF eq_refl). reflexivity. }
  rewrite E. reflexivity.
Qed.
Lemma add_plain old new : (forall o, In o new -> col_of o = None) -> addObjects old new = old ++ new.
Proof.
  intros N. unfold addObjects. f_equal. assert (E : forall j, existsb (same_col j) new = false).
  { intros j. destruct (existsb (same_col j) new) eqn:X; [|reflexivity]. apply existsb_exists in X. destruct X as (o & I & X). unfold same_col in X. rewrite (N o I) in X. discriminate. }
  induction old as [|o t IH]; [reflexivity|]. cbn. destruct (col_of o); [rewrite E|]; cbn; now rewrite IH.
Qed.
Lemma sos_ok_objects u objs : sized u -> (match u_prio u with Some _ => (length objs <= length (u_cols u))%nat | None => True end) ->
  sos_objects u objs = Ok (objs ++ wanted_sos u).
Proof.
  intros (P & _ & _ & _ & SO & _) LE. unfold sos_objects, wanted_sos. destruct (u_sos u) as [q|]; [|destruct (u_nosos u); rewrite app_nil_r; reflexivity].
  destruct (u_nosos u); [cbn; rewrite app_nil_r; reflexivity|]. cbn [orb]. destruct (Nat.eqb_spec (so_num q) 0) as [E0|_].
  { rewrite E0. cbn. rewrite app_nil_r. reflexivity. }
  assert (H1 : exists h1, match u_prio u with Some l => nonzero (length objs) l | None => Ok false end = Ok h1).
  { destruct (u_prio u) as [l|]; [|eauto]. cbn in P. destruct (nonzero_spec (length objs) l) as (b & E & _); [lia|eauto]. }
  destruct H1 as (h1 & ->). cbn [bind].
  assert (H2 : exists h2, match so_prio q with Some l => nonzero (so_num q) l | None => Ok false end = Ok h2 /\ (h2 = false -> forall i, (i < so_num q)%nat -> at_col (so_prio q) i 0 = 0)).
  { destruct SO as (_ & _ & SP & _). destruct (so_prio q) as [l|]; [|exists false; auto]. cbn in SP. destruct (nonzero_spec (so_num q) l) as (b & E & F); [lia|exists b; split; [exact E|exact F]]. }
  destruct H2 as (h2 & -> & HF). cbn [bind].
  rewrite (mapM_ok _ (sos_at q)).
  - cbn [bind]. f_equal. apply add_plain. intros o O. apply in_map_iff in O. destruct O as (i & <- & _). reflexivity.
  - intros i I. apply in_seq in I. apply one_sos_ok; [exact SO|lia|]. intros X. apply orb_false_iff in X. apply HF; [tauto|lia].
Qed.
Lemma extra_ok u objs : sized u -> extra_objects u objs = Ok (objs ++ wanted_extra u).
Proof.
  intros (_ & _ & _ & _ & _ & EX). unfold extra_objects, wanted_extra.
  assert (E : mapM (fun e => match e with Some k => Ok (OExtra k) | None => AssertFail end) (u_extra u) = Ok (flat_map (fun e => match e with Some k => [OExtra k] | None => [] end) (u_extra u))).
  { induction EX as [|e t N _ IH]; [reflexivity|]. cbn [mapM flat_map]. destruct e as [k|]; [|congruence]. cbn [bind]. rewrite IH. reflexivity. }
  rewrite E. cbn [bind]. f_equal. apply add_plain. intros o O. apply in_flat_map in O. destruct O as ([k|] & _ & O); [|destruct O]. destruct O as [<- |[]]. reflexivity.
Qed.
Lemma objects_ok u old : sized u -> user_branching u -> (u_up u <> None -> u_down u <> None) ->
  (others old = [] \/ (u_prio u = None /\ u_dir u = None /\ u_up u = None)) ->
  set_objects u old = Ok (wanted_ints u ++ others old ++ wanted_sos u ++ wanted_extra u).
Proof.
  intros SZ UB UD OT. unfold set_objects. rewrite UB. rewrite integers_ok by assumption. cbn [bind]. rewrite sos_ok_objects; [|exact SZ|].
  - cbn [bind]. rewrite extra_ok by exact SZ. now rewrite <- !app_assoc.
  - destruct (u_prio u) eqn:E; [|exact Logic.I]. destruct OT as [-> |(X & _)]; [|congruence]. rewrite app_nil_r, wanted_ints_eq, map_length. apply int_cols_le.
Qed.

(** ** prepare *)
Definition key (g : gen) := (how g, g_oa g, g_reassign g, g_lp g).
Lemma key_tell l g : key (tell l g) = key g.
Proof. unfold tell, key. destruct (g_oa g) eqn:E; cbn; rewrite ?E; reflexivity. Qed.
Definition new_special (u : setup) (m : cbc) : Z := if Z.eqb (u_special u) 0 then m_special m else u_special u.
Definition new_strat (u : setup) (m : cbc) := if Z.eqb (u_special u) 16 then Some (u_fail u) else m_strat m.
Definition new_pars (u : setup) : pars :=
  mkP (u_passes u) (u_rpasses u) (u_strong u) (u_trust u) (u_nodes u) (u_iters u) (u_sols u) (u_decr u) (u_cutoff u + cutoff_tol)%Q (u_gap u) (u_fgap u) (u_time u) (u_inttol u).
Lemma prepare_inv u b b' t : prepare u b = Ok (b', t) ->
  exists objs, set_objects u (m_objs (b_model b)) = Ok objs /\ m_objs (b_model b') = objs /\ m_solver (b_model b') = S (m_solver (b_model b)) /\
    map key (m_gens (b_model b')) = map key (m_gens (b_model b)) ++ map (fun g => key (add_gen (S (m_solver (b_model b))) g)) (u_gens u) /\
    m_heus (b_model b') = m_heus (b_model b) ++ map HSet (u_heus u) ++ guesses u /\
    m_special (b_model b') = new_special u (b_model b) /\ m_strat (b_model b') = new_strat u (b_model b) /\
    m_tree (b_model b') = tree_of u (m_tree (b_model b)) /\ m_cmp (b_model b') = (match u_tree u with DfsDiveDynamic => KDiver (compare_of u) | _ => compare_of u end) /\
    m_pars (b_model b') = new_pars u /\
    ((objs = [] \/ u_special u = 16) /\ b_objs b' = b_objs b /\ t = false \/
     objs <> [] /\ u_special u <> 16 /\ delete_objs (b_objs b) = Ok tt /\ b_objs b' = Some (copied objs) /\ t = negb (forallb supported objs) /\
     (t = false -> forall g, In g (m_gens (b_model b')) -> g_oa g = true -> g_objs g = Some objs)).
Proof.
  unfold prepare. intros X.
  assert (SP : (if Z.eqb (u_special u) 0 then (m_special (b_model b), m_strat (b_model b)) else (u_special u, if Z.eqb (u_special u) 16 then Some (u_fail u) else m_strat (b_model b)))
               = (new_special u (b_model b), new_strat u (b_model b))).
  { unfold new_special, new_strat. destruct (Z.eqb_spec (u_special u) 0) as [E|N]; [rewrite E; reflexivity|reflexivity]. }
  rewrite SP in X. apply bind_ok in X. destruct X as (objs & SO & X). exists objs. split; [exact SO|].
  assert (HG : forall h, match u_cmp u with bestGuess => (m_heus (b_model b) ++ h) ++ [HGuess] | _ => m_heus (b_model b) ++ h end = m_heus (b_model b) ++ h ++ guesses u).
  { intros h. unfold guesses. destruct (u_cmp u); rewrite ?app_nil_r, ?app_assoc; reflexivity. }
  rewrite HG in X. clear HG SP.
  assert (KG : map key (m_gens (b_model b) ++ map (add_gen (S (m_solver (b_model b)))) (u_gens u)) =
               map key (m_gens (b_model b)) ++ map (fun g => key (add_gen (S (m_solver (b_model b))) g)) (u_gens u)) by (rewrite map_app, map_map; reflexivity).
  assert (CM : (match u_tree u with DfsDiveDynamic => KDiver (compare_of u) | _ => compare_of u end) = (match u_tree u with DfsDiveDynamic => KDiver (compare_of u) | _ => compare_of u end)) by reflexivity.
  destruct objs as [|o os].
  { injection X as <- <-. cbn [b_model m_objs m_solver m_gens m_heus m_special m_strat m_tree m_cmp m_pars b_objs]. repeat (split; [first [reflexivity|exact KG]|]). left. auto. }
  destruct (Z.eqb_spec (u_special u) 16) as [E|N].
  { injection X as <- <-. cbn [b_model m_objs m_solver m_gens m_heus m_special m_strat m_tree m_cmp m_pars b_objs]. repeat (split; [first [reflexivity|exact KG]|]). left. auto. }
  apply bind_ok in X. destruct X as ([] & DL & X). destruct (forallb supported (o :: os)) eqn:F; injection X as <- <-;
    cbn [b_model m_objs m_solver m_gens m_heus m_special m_strat m_tree m_cmp m_pars b_objs]; repeat (split; [first [reflexivity|exact KG|rewrite map_map; erewrite map_ext; [exact KG|intros; apply key_tell]]|]); right;
    (split; [discriminate|]); (split; [exact N|]); (split; [exact DL|]); (split; [reflexivity|]); (split; [reflexivity|]).
  - intros _ g G OA. apply in_map_iff in G. destruct G as (g0 & <- & _). unfold tell in *. destruct (g_oa g0) eqn:E; [reflexivity|]. congruence.
  - discriminate.
Qed.
Lemma prepare_ok u b objs : set_objects u (m_objs (b_model b)) = Ok objs -> delete_objs (b_objs b) = Ok tt -> exists b' t, prepare u b = Ok (b', t).
Proof.
  intros SO DL. unfold prepare. destruct (if Z.eqb (u_special u) 0 then _ else _) as [sp st]. rewrite SO. cbn [bind]. destruct objs as [|o os]; [eauto|].
  destruct (Z.eqb (u_special u) 16); [eauto|]. rewrite DL. cbn [bind]. destruct (forallb supported (o :: os)); eauto.
Qed.

(** ** Histories *)
Lemma last_such_snoc {A} (f : A -> bool) l x : last_such f (l ++ [x]) = if f x then Some x else last_such f l.
Proof. unfold last_such. rewrite rev_app_distr. cbn. destruct (f x); reflexivity. Qed.
Lemma prepares_snoc us u : forall b b', prepares (us ++ [u]) b = Ok b' <-> exists b1 t, prepares us b = Ok b1 /\ prepare u b1 = Ok (b', t).
Proof.
  induction us as [|v t IH]; intros b b'; cbn [prepares app].
  - split.
    + intros X. apply bind_ok in X. destruct X as ((b1 & tt0) & X & Y). injection Y as <-. eauto.
    + intros (b1 & t & E & X). injection E as <-. rewrite X. reflexivity.
  - split.
    + intros X. apply bind_ok in X. destruct X as ((b1 & t1) & X & Y). apply IH in Y. destruct Y as (b2 & t2 & Y1 & Y2). exists b2, t2. rewrite X. auto.
    + intros (b1 & t1 & X & Y). apply bind_ok in X. destruct X as ((b2 & t2) & X1 & X2). rewrite X1. cbn [bind]. apply IH. eauto.
Qed.
Lemma others_wanted u l : others (wanted_ints u ++ l) = others l.
Proof. unfold others. rewrite filter_app, wanted_ints_eq. replace (filter _ (map (wanted_at u) (int_cols u))) with (@nil obj); [reflexivity|]. induction (int_cols u); cbn; auto. Qed.
Lemma others_id l : (forall o, In o l -> is_int o = false) -> others l = l.
Proof. unfold others. induction l as [|o t IH]; intros X; [reflexivity|]. cbn. rewrite (X o (or_introl eq_refl)). cbn. rewrite IH; [reflexivity|]. intros p P. apply X. now right. Qed.
Lemma wanted_sos_no u o : In o (wanted_sos u) -> is_int o = false /\ col_of o = None /\ supported o = true /\ forall k c, o <> OOsi k c.
Proof.
  unfold wanted_sos. destruct (u_nosos u); [intros []|]. destruct (u_sos u) as [q|]; [|intros []]. intros X. apply in_map_iff in X. destruct X as (i & <- & _). repeat split. discriminate.
Qed.
Lemma wanted_extra_no u o : In o (wanted_extra u) -> is_int o = false /\ col_of o = None /\ supported o = false /\ forall k c, o <> OOsi k c.
Proof. unfold wanted_extra. intros X. apply in_flat_map in X. destruct X as ([k|] & _ & X); [|destruct X]. destruct X as [<- |[]]. repeat split. discriminate. Qed.
Lemma rest_others us : others (flat_map (fun u => wanted_sos u ++ wanted_extra u) us) = flat_map (fun u => wanted_sos u ++ wanted_extra u) us.
Proof.
  apply others_id. intros o X. apply in_flat_map in X. destruct X as (u & _ & X). apply in_app_or in X. destruct X as [X|X]; [apply wanted_sos_no in X|apply wanted_extra_no in X]; tauto.
Qed.
Definition last_ints (us : list setup) : list obj := match last_such (fun _ => true) us with Some u => wanted_ints u | None => [] end.
Lemma history_objs p us : forall b, Forall sized us -> Forall plain us -> prepares us (bab0 p) = Ok b ->
  m_objs (b_model b) = last_ints us ++ flat_map (fun u => wanted_sos u ++ wanted_extra u) us.
Proof.
  induction us as [|u us IH] using rev_ind; intros b SZ PL X; [injection X as <-; reflexivity|].
  apply prepares_snoc in X. destruct X as (b1 & t & X & Y). apply Forall_app in SZ, PL. destruct SZ as (SZ & SZu), PL as (PL & PLu). inversion SZu; subst. inversion PLu as [|? ? PU _]; subst.
  apply prepare_inv in Y. destruct Y as (objs & SO & -> & _). rewrite (IH b1 SZ PL X) in SO. destruct PU as (C & P1 & P2 & P3).
  rewrite objects_ok in SO; [|assumption|exact C|congruence|right; auto]. injection SO as <-. unfold last_ints at 2. rewrite last_such_snoc. f_equal. rewrite flat_map_app. cbn [flat_map]. rewrite app_nil_r. f_equal.
  unfold last_ints. destruct (last_such (fun _ => true) us); [rewrite others_wanted|]; apply rest_others.
Qed.
Lemma history_gens p us : forall b, prepares us (bab0 p) = Ok b ->
  gen_calls (b_model b) = flat_map (fun u => map how (u_gens u)) us /\ m_heus (b_model b) = flat_map (fun u => map HSet (u_heus u) ++ guesses u) us /\
  m_solver (b_model b) = length us /\ m_special (b_model b) = special_of us /\ m_strat (b_model b) = strategy_of us /\ m_tree (b_model b) = search_tree us.
Proof.
  induction us as [|u us IH] using rev_ind; intros b X; [injection X as <-; repeat split; reflexivity|].
  apply prepares_snoc in X. destruct X as (b1 & t & X & Y). destruct (IH b1 X) as (A1 & A2 & A3 & A4 & A5 & A6).
  apply prepare_inv in Y. destruct Y as (objs & _ & _ & B3 & B1 & B2 & B4 & B5 & B6 & _). rewrite !flat_map_app. cbn [flat_map]. rewrite !app_nil_r.
  split; [|split; [|split; [|split; [|split]]]].
  - unfold gen_calls in *. rewrite <- A1. transitivity (map (fun k => fst (fst (fst k))) (map key (m_gens (b_model b)))); [rewrite map_map; reflexivity|]. rewrite B1, map_app, !map_map. reflexivity.
  - rewrite B2, A2. reflexivity.
  - rewrite B3, A3, app_length. cbn. lia.
  - rewrite B4. unfold new_special, special_of. rewrite last_such_snoc. destruct (Z.eqb (u_special u) 0); cbn; [rewrite A4; reflexivity|reflexivity].
  - rewrite B5. unfold new_strat, strategy_of. rewrite last_such_snoc. destruct (Z.eqb (u_special u) 16); cbn; [reflexivity|rewrite A5; reflexivity].
  - rewrite B6. unfold tree_of, search_tree. rewrite last_such_snoc. unfold uses_tree at 1. destruct (u_tree u) eqn:E; rewrite ?E; try reflexivity. rewrite A6. reflexivity.
Qed.
(** Number of the set-up a generator comes from. *)
Fixpoint lps (k : nat) (us : list setup) : list (bool * bool * option nat) :=
  match us with [] => [] | u :: t => map (fun g => (g_oa g, g_reassign g, if (g_oa g && g_reassign g)%bool then Some (S k) else g_lp g)) (u_gens u) ++ lps (S k) t end.
Lemma lps_snoc us u : forall k, lps k (us ++ [u]) = lps k us ++ lps (k + length us) [u].
Proof.
  induction us as [|v t IH]; intros k; cbn [lps app length]; [now rewrite Nat.add_0_r|]. rewrite IH. cbn [lps]. replace (S k + length t)%nat with (k + S (length t))%nat by lia. now rewrite app_assoc.
Qed.
Lemma history_lps p us : forall b, prepares us (bab0 p) = Ok b -> map (fun g => (g_oa g, g_reassign g, g_lp g)) (m_gens (b_model b)) = lps 0 us.
Proof.
  induction us as [|u us IH] using rev_ind; intros b X; [injection X as <-; reflexivity|].
  apply prepares_snoc in X. destruct X as (b1 & t & X & Y). pose proof (proj1 (proj2 (proj2 (history_gens p us b1 X)))) as SV.
  apply prepare_inv in Y. destruct Y as (objs & _ & _ & _ & B1 & _). rewrite lps_snoc, <- (IH b1 X). cbn [lps]. rewrite app_nil_r.
  transitivity (map (fun k => (snd (fst (fst k)), snd (fst k), snd k)) (map key (m_gens (b_model b)))); [rewrite map_map; reflexivity|]. rewrite B1, map_app, !map_map, SV. reflexivity.
Qed.
(** ** Pointers *)
Definition set_all (o : option (list (option obj))) : Prop := delete_objs o = Ok tt.
Lemma copied_all l : forallb supported l = true -> delete_objs (Some (copied l)) = Ok tt.
Proof.
  intros F. cbn [delete_objs]. assert (E : existsb (fun x => match x with None => true | Some _ => false end) (copied l) = false).
  { induction l as [|o t IH]; [reflexivity|]. cbn in F |- *. apply andb_true_iff in F. destruct F as (F1 & F2). rewrite F1. cbn. auto. }
  rewrite E. reflexivity.
Qed.
Lemma copied_some l : forallb supported l = false -> delete_objs (Some (copied l)) = Uninit.
Proof.
  intros F. cbn [delete_objs]. assert (E : existsb (fun x => match x with None => true | Some _ => false end) (copied l) = true).
  { induction l as [|o t IH]; [discriminate|]. cbn [forallb copied] in *. destruct (supported o); [cbn; auto|]. cbn. reflexivity. }
  rewrite E. reflexivity.
Qed.
