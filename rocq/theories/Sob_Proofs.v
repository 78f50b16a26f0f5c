(** Proofs about set-up objects. *)
From Verif Require Import Base.
From Verif Require Import Sob_Model Sob_Spec.

(** * Sources *)
Section Sources.
Variables O T K F : Type.
Variable fresh : O.
Variable rdst : O -> T -> O * bool.
Variable setk : O -> K -> O.
Variable wants : O -> bool.
Variable nothing : T.
Variable fs : F -> option T.
Variable dflt : F.
Notation op := (sop O T K F).
Notation step := (sstep O T K F fresh rdst setk wants nothing fs dflt).
Notation run := (srun O T K F fresh rdst setk wants nothing fs dflt).
Notation cts := (contents O fresh).
Notation crun := (calls O T K F fresh rdst setk wants nothing fs dflt).
Notation rstream := (read_stream O T fresh rdst wants).
Notation rdef := (read_default O T F fresh rdst wants nothing fs dflt).

Lemma rstream_ok : forall g s s' b, rstream g s = (s', b) ->
  (b = false -> q_read s' = true) /\ (b = true -> q_read s' = q_read s) /\
  q_o s' = Some (match g with Some t => fst (rdst (cts s) t) | None => cts s end) /\
  b = (match g with Some t => negb (snd (rdst (cts s) t)) | None => false end) /\
  q_doc s' = (q_doc s + if b then 0 else if wants (cts s') then 1 else 0)%nat.
Proof.
  intros g s s' b E. unfold read_stream in E. change (held fresh s) with (cts s) in E.
  destruct g as [t|].
  - destruct (rdst (cts s) t) as [o ok] eqn:R. destruct ok; injection E as <- <-; cbn;
      repeat split; auto; try discriminate.
  - injection E as <- <-. cbn. repeat split; auto; discriminate.
Qed.

Lemma file_cases : forall s f, exists s',
  step s (SFile (Some f)) =
    Ok (s', match fs f with Some t => negb (snd (rdst (cts s) t)) | None => false end) /\
  q_o s' = Some (match fs f with Some t => fst (rdst (cts s) t) | None => cts s end).
Proof.
  intros s f. cbn [sstep]. unfold read_file, opened. destruct (rstream (fs f) s) as [s' b] eqn:E.
  destruct (rstream_ok _ _ _ _ E) as (_ & _ & A & B & _). exists s'. rewrite A, B. auto.
Qed.

Lemma rdef_ok : forall s s' b, rdef s = (s', b) ->
  (b = false -> q_read s' = true) /\ (b = true -> q_read s' = q_read s) /\
  (q_read s = true -> s' = s /\ b = false) /\
  (q_read s = false -> q_o s' = Some (match fs dflt with Some t => fst (rdst (cts s) t) | None => cts s end)) /\
  (q_doc s <= q_doc s' <= q_doc s + 1)%nat.
Proof.
  intros s s' b E. unfold read_default in E. destruct (q_read s) eqn:R.
  - injection E as <- <-. repeat split; auto; try discriminate; try lia.
  - unfold read_file, opened in E. destruct (rstream_ok _ _ _ _ E) as (A & B & C & _ & D).
    rewrite R in B. repeat split; auto; try discriminate; intros; destruct b; try destruct (wants _); lia.
Qed.

(** After a call: whether options count as read. *)
Definition counts (c : op * bool) : bool :=
  negb (snd c) && match fst c with SInit | SSet _ | SGive _ => false | _ => true end.

Lemma use_ok : forall s s' b, use_problem O T F fresh rdst wants nothing fs dflt s = Ok (s', b) ->
  rdef s = (s', b).
Proof.
  intros s s' b E. unfold use_problem in E. destruct (rdef s) as [s1 th] eqn:R. destruct th.
  - injection E as <- <-. reflexivity.
  - destruct (q_o s1) eqn:Q; [|discriminate]. injection E as <- <-. reflexivity.
Qed.

Lemma ampl_ok : forall s s' b, step s SAmpl = Ok (s', b) ->
  exists s1 b1, rdef s = (s1, b1) /\ b1 = b /\ q_o s' = q_o s1 /\ q_read s' = q_read s1 /\
    (b = true -> s' = s1) /\ (b = false -> q_doc s' = q_doc s1 + if wants (cts s1) then 1 else 0)%nat.
Proof.
  intros s s' b E. cbn [sstep] in E. destruct (rdef s) as [s1 th] eqn:R. exists s1, th. split; [reflexivity|].
  destruct th.
  - injection E as <- <-. repeat split; auto; discriminate.
  - unfold print_doc in E. destruct (q_o s1) as [o|] eqn:Q; [|discriminate]. cbn [bind] in E.
    destruct (rdef_ok _ _ _ R) as (A & _). specialize (A eq_refl).
    apply use_ok in E. unfold read_default in E. cbn in E. rewrite A in E.
    injection E as <- <-. cbn. unfold contents. rewrite Q. repeat split; auto; discriminate.
Qed.

Lemma step_read : forall s o s' b, step s o = Ok (s', b) ->
  q_read s' = q_read s || counts (o, b).
Proof.
  intros s o s' b E. unfold counts. cbn [fst snd].
  assert (K1 : forall x, x = (s', b) -> x = rdef s -> q_read s' = q_read s || negb b).
  { intros x -> R. symmetry in R. destruct (rdef_ok _ _ _ R) as (A & B & C & _).
    destruct b; cbn; [rewrite B by reflexivity; destruct (q_read s); reflexivity|].
    rewrite A by reflexivity. rewrite orb_true_r. reflexivity. }
  assert (K2 : forall g, rstream g s = (s', b) -> q_read s' = q_read s || negb b).
  { intros g R. destruct (rstream_ok _ _ _ _ R) as (A & B & _).
    destruct b; cbn; [rewrite B by reflexivity; destruct (q_read s); reflexivity|].
    rewrite A by reflexivity. rewrite orb_true_r. reflexivity. }
  destruct o; rewrite ?andb_true_r, ?andb_false_r, ?orb_false_r.
  - injection E as <- <-. reflexivity.
  - cbn in E. destruct (q_o s); [|discriminate]. injection E as <- <-. reflexivity.
  - injection E as E. unfold read_file in E. exact (K2 _ E).
  - injection E as E. exact (K1 _ E eq_refl).
  - injection E as E. exact (K2 (Some t) E).
  - apply use_ok in E. exact (K1 _ E eq_refl).
  - apply ampl_ok in E. destruct E as (s1 & b1 & R & -> & _ & Rd & _).
    rewrite Rd. destruct (rdef_ok _ _ _ R) as (A & B & _).
    destruct b; cbn; [rewrite B by reflexivity; destruct (q_read s); reflexivity|].
    rewrite A by reflexivity. rewrite orb_true_r. reflexivity.
  - injection E as <- <-. cbn. rewrite orb_true_r. reflexivity.
  - injection E as <- <-. reflexivity.
Qed.

Lemma calls_read : forall ops s s' tr, crun s ops = Ok (s', tr) ->
  q_read s' = q_read s || existsb counts tr /\ map fst tr = ops.
Proof.
  induction ops as [|o ops IH]; intros s s' tr E; cbn [calls] in E.
  - injection E as <- <-. cbn. rewrite orb_false_r. auto.
  - destruct (step s o) as [[s1 b]| | | | | | |] eqn:S1; try discriminate. cbn [bind] in E.
    destruct (crun s1 ops) as [[s2 t2]| | | | | | |] eqn:S2; try discriminate. cbn [bind] in E.
    injection E as <- <-. destruct (IH _ _ _ S2) as (A & B). pose proof (step_read _ _ _ _ S1) as C.
    cbn [existsb map fst]. rewrite A, C, B, orb_assoc. auto.
Qed.

Lemma existsb_same : forall {A} (f g : A -> bool) l, (forall x, In x l -> f x = g x) -> existsb f l = existsb g l.
Proof. induction l as [|a l IH]; intros H; cbn; [reflexivity|]. rewrite (H a), IH; auto; [intros; apply H|]; cbn; auto. Qed.

(** The state before the default file is asked for. *)
Lemma default_step : forall s, exists s' b, step s SDefault = Ok (s', b) /\
  cts s' = (if q_read s then cts s else match fs dflt with Some t => fst (rdst (cts s) t) | None => cts s end) /\
  (q_read s = true -> s' = s /\ b = false).
Proof.
  intros s. cbn [sstep]. destruct (rdef s) as [s' b] eqn:R. exists s', b. split; [reflexivity|].
  destruct (rdef_ok _ _ _ R) as (_ & _ & C & D & _). destruct (q_read s) eqn:Q.
  - destruct (C eq_refl) as (-> & ->). auto.
  - split; [|discriminate]. unfold contents at 1. rewrite D by reflexivity. reflexivity.
Qed.

Lemma default_when : forall ops s tr, crun src_new ops = Ok (s, tr) ->
  (forall f, In (SFile (Some f)) ops -> fs f <> None) ->
  exists s' b, step s SDefault = Ok (s', b) /\
    cts s' = (if existsb (has_read O T K F fs) tr then cts s
              else match fs dflt with Some t => fst (rdst (cts s) t) | None => cts s end).
Proof.
  intros ops s tr E N. destruct (calls_read _ _ _ _ E) as (A & M). cbn in A.
  destruct (default_step s) as (s' & b & S1 & C & _). exists s', b. split; [exact S1|]. rewrite C.
  rewrite A, (existsb_same counts (has_read O T K F fs)); [reflexivity|].
  intros [o c] H. unfold counts, has_read. cbn [fst snd]. f_equal. destruct o as [|k|[f|]| | | | | |]; try reflexivity.
  specialize (N f). destruct (fs f); [reflexivity|]. exfalso. apply N; [|reflexivity].
  rewrite <- M. exact (in_map fst _ _ H).
Qed.

Lemma read_stays : forall ops s s' tr, crun s ops = Ok (s', tr) -> q_read s = true -> q_read s' = true.
Proof. intros ops s s' tr E H. destruct (calls_read _ _ _ _ E) as (A & _). rewrite A, H. reflexivity. Qed.

Lemma missing_stops : forall ops s s' tr f, crun s ops = Ok (s', tr) -> In (SFile (Some f)) ops -> fs f = None ->
  q_read s' = true.
Proof.
  induction ops as [|o ops IH]; intros s s' tr f E H N; [destruct H|]. cbn [calls] in E.
  destruct (step s o) as [[s1 b]| | | | | | |] eqn:S1; try discriminate. cbn [bind] in E.
  destruct (crun s1 ops) as [[s2 t2]| | | | | | |] eqn:S2; try discriminate. cbn [bind] in E.
  injection E as <- <-. destruct H as [-> | H]; [|exact (IH _ _ _ _ S2 H N)].
  apply (read_stays _ _ _ _ S2). rewrite (step_read _ _ _ _ S1). destruct (file_cases s f) as (x & Q & _).
  rewrite Q, N in S1. injection S1 as <- <-. cbn. apply orb_true_r.
Qed.

Lemma default_never : forall ops s tr f, crun src_new ops = Ok (s, tr) -> In (SFile (Some f)) ops -> fs f = None ->
  step s SDefault = Ok (s, false).
Proof.
  intros ops s tr f E H N. pose proof (missing_stops _ _ _ _ _ E H N) as Q.
  destruct (default_step s) as (s' & b & S1 & _ & C). destruct (C Q) as (-> & ->). exact S1.
Qed.

(** ** Settings in force *)
Notation adds := (add O T K rdst setk).
Notation txt := (texts O T K F nothing fs dflt).
Lemma in_order : forall ops s s' tr, crun s ops = Ok (s', tr) -> quiet O T K F tr ->
  forallb (fun o => negb (replaces O T K F o)) ops = true ->
  cts s' = fold_left adds (txt (q_read s) ops) (cts s).
Proof.
  induction ops as [|o ops IH]; intros s s' tr E Qt H; cbn [calls] in E.
  - injection E as <- <-. reflexivity.
  - destruct (step s o) as [[s1 b]| | | | | | |] eqn:S1; try discriminate. cbn [bind] in E.
    destruct (crun s1 ops) as [[s2 t2]| | | | | | |] eqn:S2; try discriminate. cbn [bind] in E.
    injection E as <- <-. cbn [forallb] in H. apply andb_true_iff in H. destruct H as (H1 & H2).
    unfold quiet in Qt. apply Forall_cons_iff in Qt. destruct Qt as (Q1 & Q2). cbn in Q1. subst b.
    pose proof (IH _ _ _ S2 Q2 H2) as I. pose proof (step_read _ _ _ _ S1) as Rd. rewrite I. clear I IH.
    assert (Df : forall x, rdef s = (x, false) -> cts s1 = cts x -> q_read s1 = true ->
       fold_left adds (txt (q_read s1) ops) (cts s1) =
       fold_left adds ((if q_read s then [] else match fs dflt with Some t => [inl t] | None => [] end) ++ txt true ops) (cts s)).
    { intros x R Cx Rx. rewrite Rx, fold_left_app. f_equal. rewrite Cx.
      destruct (rdef_ok _ _ _ R) as (_ & _ & C & D & _). destruct (q_read s) eqn:Q.
      - destruct (C eq_refl) as (-> & _). reflexivity.
      - unfold contents at 1. rewrite D by reflexivity. destruct (fs dflt); reflexivity. }
    destruct o as [|k|[f|]| |t| | |o|o]; try discriminate; unfold counts in Rd; cbn [fst snd negb andb] in Rd;
      rewrite ?orb_true_r, ?orb_false_r in Rd; cbn [texts].
    + rewrite Rd. cbn in S1. destruct (q_o s) as [o|] eqn:Q; [|discriminate]. injection S1 as <-.
      cbn. unfold contents. cbn. rewrite Q. reflexivity.
    + rewrite Rd. destruct (file_cases s f) as (x & Ex & Cx). rewrite Ex in S1. injection S1 as <- _.
      rewrite fold_left_app. f_equal. unfold contents at 1. rewrite Cx. destruct (fs f); reflexivity.
    + rewrite Rd. injection S1 as S1. unfold read_file, opened in S1.
      destruct (rstream_ok _ _ _ _ S1) as (_ & _ & Cx & _). cbn. unfold contents at 1. rewrite Cx. reflexivity.
    + injection S1 as S1. apply (Df s1); auto.
    + rewrite Rd. injection S1 as S1. destruct (rstream_ok (Some t) _ _ _ S1) as (_ & _ & Cx & _). cbn.
      unfold contents at 1. rewrite Cx. reflexivity.
    + apply use_ok in S1. apply (Df s1); auto.
    + apply ampl_ok in S1. destruct S1 as (x & b1 & R & -> & Qx & _). apply (Df x); auto.
      unfold contents. rewrite Qx. reflexivity.
Qed.

Lemma from_nlp : forall s o, exists s', step s (SUseNlp o) = Ok (s', false) /\ cts s' = o /\ q_read s' = true.
Proof. intros s o. eexists. split; [reflexivity|]. auto. Qed.
Lemma again_fresh : forall s, exists s', step s SInit = Ok (s', false) /\ cts s' = fresh /\ q_read s' = q_read s.
Proof. intros s. eexists. split; [reflexivity|]. auto. Qed.

(** ** The documentation *)
Lemma doc_step : forall s o s' b, step s o = Ok (s', b) ->
  (q_doc s <= q_doc s' <= q_doc s + match o with SAmpl => 2 | _ => 1 end)%nat /\
  (b = true -> q_doc s' = q_doc s) /\
  (match o with SFile _ | SString _ => b = false -> wants (cts s') = true -> q_doc s' = S (q_doc s) | _ => True end).
Proof.
  intros s o s' b E.
  assert (K2 : forall g, rstream g s = (s', b) -> (q_doc s <= q_doc s' <= q_doc s + 1)%nat /\ (b = true -> q_doc s' = q_doc s) /\
     (b = false -> wants (cts s') = true -> q_doc s' = S (q_doc s))).
  { intros g R. destruct (rstream_ok _ _ _ _ R) as (_ & _ & _ & _ & D).
    repeat split; intros; rewrite D; destruct b; try discriminate; try destruct (wants _); try discriminate; lia. }
  assert (K1 : forall x c, rdef s = (x, c) -> (q_doc s <= q_doc x <= q_doc s + 1)%nat /\ (c = true -> q_doc x = q_doc s)).
  { intros x c R. split; [apply (rdef_ok _ _ _ R)|]. intros ->. unfold read_default in R.
    destruct (q_read s); [discriminate|]. unfold read_file in R. destruct (rstream_ok _ _ _ _ R) as (_ & _ & _ & _ & D). lia. }
  destruct o.
  - injection E as <- <-. cbn. repeat split; auto; lia.
  - cbn in E. destruct (q_o s); [|discriminate]. injection E as <- <-. cbn. repeat split; auto; lia.
  - injection E as E. exact (K2 _ E).
  - injection E as E. destruct (K1 _ _ E) as (A & B). repeat split; auto; lia.
  - injection E as E. exact (K2 (Some t) E).
  - apply use_ok in E. destruct (K1 _ _ E) as (A & B). repeat split; auto; lia.
  - apply ampl_ok in E. destruct E as (x & c & R & -> & _ & _ & X & Y). destruct (K1 _ _ R) as (A & B).
    repeat split; auto; destruct b; try discriminate; intros;
      try (rewrite X by reflexivity; try (apply B; reflexivity); lia);
      rewrite Y by reflexivity; destruct (wants _); lia.
  - injection E as <- <-. cbn. repeat split; auto; lia.
  - injection E as <- <-. cbn. repeat split; auto; lia.
Qed.

Lemma doc_ampl : forall t s' b, fs dflt = Some t -> step src_new SAmpl = Ok (s', b) -> b = false ->
  q_doc s' = if wants (fst (rdst fresh t)) then 2%nat else 0%nat.
Proof.
  intros t s' b Ef E ->. apply ampl_ok in E. destruct E as (x & c & R & -> & _ & _ & _ & Y).
  rewrite Y by reflexivity. unfold read_default in R. cbn in R. unfold read_file, opened in R. rewrite Ef in R.
  destruct (rstream_ok _ _ _ _ R) as (_ & _ & C & _ & D). rewrite D.
  unfold contents. rewrite C. cbn. destruct (wants (fst (rdst fresh t))); reflexivity.
Qed.
End Sources.

(** * Heap and copies *)
(** The outcome is not the use of a deleted object, and a result satisfies [P]. *)
Definition good {A} (P : A -> Prop) (o : outcome A) : Prop :=
  match o with Ok a => P a | Dangling => False | _ => True end.
Lemma good_bind : forall {A B} (P : A -> Prop) (R : B -> Prop) o (f : A -> outcome B),
  good P o -> (forall a, P a -> good R (f a)) -> good R (bind o f).
Proof. intros A B P R o f G H. destruct o; cbn in *; auto. Qed.

Definition alive (h : heap) (p : nat) : Prop := exists c, nth_error h p = Some (Some c).
(** [w'] comes from [w] by adding objects and option lists. *)
Definition ext (w w' : world) : Prop :=
  w_su w' = w_su w /\ (exists e, w_h w' = w_h w ++ e /\ Forall (fun c => c <> None) e) /\ exists e, w_ol w' = w_ol w ++ e.
Lemma ext_refl : forall w, ext w w.
Proof. intros w. split; [reflexivity|]. split; exists []; rewrite app_nil_r; auto. Qed.
Lemma ext_trans : forall a b c, ext a b -> ext b c -> ext a c.
Proof.
  intros a b c (A1 & (e1 & A2 & A4) & (f1 & A3)) (B1 & (e2 & B2 & B4) & (f2 & B3)). split; [congruence|]. split.
  - exists (e1 ++ e2). rewrite B2, A2, app_assoc. split; [reflexivity|]. apply Forall_app; auto.
  - exists (f1 ++ f2). rewrite B3, A3, app_assoc. reflexivity.
Qed.
Lemma nth_app1 : forall {A} (l e : list A) p x, nth_error l p = Some x -> nth_error (l ++ e) p = Some x.
Proof.
  intros A l e p x H. rewrite nth_error_app1; [exact H|]. apply nth_error_Some. rewrite H. discriminate.
Qed.
Lemma ext_cell : forall w w' p c, ext w w' -> nth_error (w_h w) p = Some c -> nth_error (w_h w') p = Some c.
Proof. intros w w' p c (_ & (e & -> & _) & _) H. apply nth_app1. exact H. Qed.
Lemma ext_list : forall w w' p c, ext w w' -> nth_error (w_ol w) p = Some c -> nth_error (w_ol w') p = Some c.
Proof. intros w w' p c (_ & _ & (e & ->)) H. apply nth_app1. exact H. Qed.
Lemma ext_alive : forall w w' p, ext w w' -> alive (w_h w) p -> alive (w_h w') p.
Proof. intros w w' p E (c & H). exists c. exact (ext_cell _ _ _ _ E H). Qed.
Lemma ext_len : forall w w', ext w w' -> (length (w_h w) <= length (w_h w'))%nat.
Proof. intros w w' (_ & (e & -> & _) & _). rewrite app_length. lia. Qed.
Lemma ext_oll : forall w w', ext w w' -> (length (w_ol w) <= length (w_ol w'))%nat.
Proof. intros w w' (_ & _ & (e & ->)). rewrite app_length. lia. Qed.
Lemma alive_lt : forall h p, alive h p -> (p < length h)%nat.
Proof. intros h p (c & H). apply nth_error_Some. rewrite H. discriminate. Qed.
(** An address of [w'] not in [w] is alive. *)
Lemma ext_new : forall w w' p, ext w w' -> (length (w_h w) <= p < length (w_h w'))%nat -> alive (w_h w') p.
Proof.
  intros w w' p (_ & (e & E & Fe) & _) H. rewrite E in *. rewrite app_length in H.
  unfold alive. rewrite nth_error_app2 by lia. destruct (nth_error e (p - length (w_h w))) as [c|] eqn:N.
  - apply nth_error_In in N. rewrite Forall_forall in Fe. specialize (Fe _ N). destruct c; [eauto|]. destruct (Fe eq_refl).
  - apply nth_error_None in N. lia.
Qed.

(** New objects of a list: their addresses lie between the two heaps and are different. *)
Definition news (w w' : world) (l : list nat) : Prop :=
  NoDup l /\ forall p, In p l -> (length (w_h w) <= p < length (w_h w'))%nat.
Lemma news_nil : forall w w', news w w' [].
Proof. intros. split; [constructor|]. intros p []. Qed.
Lemma news_app : forall a b c d l m, ext a b -> ext b c -> ext c d -> news a b l -> news c d m -> news a d (l ++ m).
Proof.
  intros a b c d l m E1 E2 E3 (N1 & R1) (N2 & R2).
  pose proof (ext_len _ _ E1). pose proof (ext_len _ _ E2). pose proof (ext_len _ _ E3). split.
  - revert R1. induction N1 as [|p l I N1 IH]; intros R1; cbn; [exact N2|]. constructor.
    + rewrite in_app_iff. intros [X|X]; [auto|]. specialize (R1 p (or_introl eq_refl)). specialize (R2 _ X). lia.
    + apply IH. intros q X. apply R1. right. exact X.
  - intros p X. apply in_app_iff in X. destruct X as [X|X]; [specialize (R1 _ X)|specialize (R2 _ X)]; lia.
Qed.
Definition opt (p : option nat) : list nat := match p with Some p => [p] | None => [] end.

(** Option lists named by objects exist. *)
Definition lists_ok (w : world) : Prop :=
  forall p c q, nth_error (w_h w) p = Some (Some c) -> e_opt c = Some q -> (q < length (w_ol w))%nat.

Lemma ol_copy_ok : forall o w, (forall q, o = Some q -> (q < length (w_ol w))%nat) ->
  exists w' o', ol_copy o w = Ok (w', o') /\ ext w w' /\ w_h w' = w_h w /\ list_of w' o' = list_of w o /\
    (o = None <-> o' = None) /\ (forall q, o' = Some q -> q = length (w_ol w) /\ length (w_ol w') = S q).
Proof.
  intros [q|] w H; cbn.
  - specialize (H q eq_refl). destruct (nth_error (w_ol w) q) as [l|] eqn:N.
    2:{ apply nth_error_None in N. lia. }
    do 2 eexists. split; [reflexivity|]. split; [|split; [reflexivity|split; [|split]]].
    + split; [reflexivity|]. split; [exists []; cbn; rewrite app_nil_r; auto|]. exists [l]. reflexivity.
    + cbn. rewrite nth_error_app2, Nat.sub_diag by lia. first [reflexivity | symmetry; exact N].
    + split; discriminate.
    + intros r E. injection E as <-. cbn. rewrite app_length. cbn. split; [reflexivity|lia].
  - exists w, None. repeat split; auto; try discriminate.
    + exists []. rewrite app_nil_r. auto.
    + exists []. rewrite app_nil_r. auto.
Qed.

Lemma w_new_ok : forall c w w' q, w_new c w = (w', q) ->
  ext w w' /\ q = length (w_h w) /\ length (w_h w') = S (length (w_h w)) /\ w_ol w' = w_ol w /\
  nth_error (w_h w') q = Some (Some c).
Proof.
  intros c w w' q E. unfold w_new, hnew in E. injection E as <- <-. split; [|repeat split].
  - split; [reflexivity|]. split; [exists [Some c]; split; [reflexivity|repeat constructor; discriminate]|].
    exists []. cbn. rewrite app_nil_r. reflexivity.
  - cbn. rewrite app_length. cbn. lia.
  - cbn. rewrite nth_error_app2, Nat.sub_diag by lia. reflexivity.
Qed.

Lemma lists_ok_new : forall c w w' q, w_new c w = (w', q) -> lists_ok w ->
  (forall r, e_opt c = Some r -> (r < length (w_ol w))%nat) -> lists_ok w'.
Proof.
  intros c w w' q E L H. unfold w_new, hnew in E. injection E as <- <-. intros p x r N X. cbn in *.
  destruct (Nat.lt_ge_cases p (length (w_h w))) as [G|G].
  - rewrite nth_error_app1 in N by exact G. exact (L _ _ _ N X).
  - rewrite nth_error_app2 in N by exact G. destruct (p - length (w_h w))%nat as [|k]; cbn in N.
    + injection N as <-. apply H. exact X.
    + destruct k; discriminate.
Qed.

(** The option list of the object at [p], if any. *)
Definition its_list (h : heap) (p : nat) : option nat :=
  match nth_error h p with Some (Some c) => e_opt c | _ => None end.

Lemma clone_ok : forall p w, lists_ok w -> alive (w_h w) p ->
  exists w' q, clone p w = Ok (w', q) /\ ext w w' /\ lists_ok w' /\ q = length (w_h w) /\ length (w_h w') = S q /\
    object (w_h w') q = object (w_h w) p /\
    (forall r, its_list (w_h w') q = Some r -> (length (w_ol w) <= r < length (w_ol w'))%nat) /\
    list_of w' (its_list (w_h w') q) = list_of w (its_list (w_h w) p).
Proof.
  intros p w L (c & N). unfold clone, hget. rewrite N. cbn [bind].
  destruct (ol_copy_ok (e_opt c) w) as (w1 & o & E1 & X1 & H1 & L1 & _ & Fr); [intros q Hq; exact (L _ _ _ N Hq)|].
  rewrite E1. cbn [bind]. destruct (w_new (mkCell (e_what c) o) w1) as [w2 q] eqn:E2.
  destruct (w_new_ok _ _ _ _ E2) as (X2 & Q & Ln & Ol & Nq).
  exists w2, q. split; [reflexivity|]. split; [exact (ext_trans _ _ _ X1 X2)|]. split.
  { apply (lists_ok_new _ _ _ _ E2).
    - intros r x y Nr Hy. rewrite H1 in Nr. pose proof (L _ _ _ Nr Hy). pose proof (ext_oll _ _ X1). lia.
    - cbn. intros r ->. specialize (Fr r eq_refl). lia. }
  split; [rewrite Q, H1; reflexivity|]. split; [rewrite Ln, H1, Q, H1; reflexivity|]. split; [|split].
  - unfold object. rewrite Nq, N. reflexivity.
  - unfold its_list. rewrite Nq. cbn. intros r ->. specialize (Fr r eq_refl). rewrite Ol. lia.
  - unfold its_list. rewrite Nq, N. cbn. rewrite <- L1. unfold list_of. rewrite Ol. reflexivity.
Qed.

Lemma ext_object : forall w w' p, ext w w' -> alive (w_h w) p -> object (w_h w') p = object (w_h w) p.
Proof. intros w w' p E (c & N). unfold object. rewrite N, (ext_cell _ _ _ _ E N). reflexivity. Qed.
Lemma ext_its : forall w w' p, ext w w' -> alive (w_h w) p -> its_list (w_h w') p = its_list (w_h w) p.
Proof. intros w w' p E (c & N). unfold its_list. rewrite N, (ext_cell _ _ _ _ E N). reflexivity. Qed.

Definition lfresh (w w' : world) (o : option nat) : Prop :=
  forall r, o = Some r -> (length (w_ol w) <= r < length (w_ol w'))%nat.
Definition its_o (h : heap) (p : option nat) : option nat := match p with Some p => its_list h p | None => None end.
Definition alive_o (h : heap) (p : option nat) : Prop := forall q, p = Some q -> alive h q.

Lemma clone_o_ok : forall p w, lists_ok w -> alive_o (w_h w) p ->
  exists w' q, clone_o p w = Ok (w', q) /\ ext w w' /\ lists_ok w' /\ news w w' (opt q) /\
    object_o (w_h w') q = object_o (w_h w) p /\ (p = None <-> q = None) /\
    lfresh w w' (its_o (w_h w') q) /\ list_of w' (its_o (w_h w') q) = list_of w (its_o (w_h w) p).
Proof.
  intros [p|] w L A; cbn [clone_o].
  - destruct (clone_ok p w L (A p eq_refl)) as (w' & q & E & X & L' & Q & Ln & Ob & Fr & Li).
    rewrite E. cbn [bind]. exists w', (Some q). split; [reflexivity|]. split; [exact X|]. split; [exact L'|].
    split; [split; [repeat constructor; auto|]; intros r [<-|[]]; lia|]. split; [exact Ob|].
    split; [split; discriminate|]. split; [exact Fr|exact Li].
  - exists w, None. split; [reflexivity|]. split; [apply ext_refl|]. split; [exact L|].
    split; [apply news_nil|]. repeat split; auto; discriminate.
Qed.

Lemma clone_cg_ok : forall l w, lists_ok w -> (forall p, In p (map snd l) -> alive (w_h w) p) ->
  exists w' r, clone_cg l w = Ok (w', r) /\ ext w w' /\ lists_ok w' /\ news w w' (map snd r) /\
    map (fun g => (fst g, object (w_h w') (snd g))) r = map (fun g => (fst g, object (w_h w) (snd g))) l.
Proof.
  induction l as [|[f p] l IH]; intros w L A; cbn [clone_cg].
  - exists w, []. split; [reflexivity|]. split; [apply ext_refl|]. split; [exact L|]. split; [apply news_nil|reflexivity].
  - destruct (clone_ok p w L) as (w1 & q & E & X & L1 & Q & Ln & Ob & _); [apply A; left; reflexivity|].
    rewrite E. cbn [bind].
    destruct (IH w1 L1) as (w2 & r & E2 & X2 & L2 & N2 & Ob2).
    { intros z Hz. apply (ext_alive _ _ _ X). apply A. right. exact Hz. }
    rewrite E2. cbn [bind]. exists w2, ((f, q) :: r). split; [reflexivity|].
    split; [exact (ext_trans _ _ _ X X2)|]. split; [exact L2|]. split.
    + cbn [map snd]. apply (news_app w w1 w1 w2 [q]); auto using ext_refl.
      split; [repeat constructor; auto|]. intros z [<-|[]]. lia.
    + assert (Aq : alive (w_h w1) q) by (apply (ext_new _ _ _ X); lia).
      cbn [map fst snd]. rewrite (ext_object _ _ _ X2 Aq), Ob, Ob2. f_equal. apply map_ext_in.
      intros [g z] Hz. cbn. f_equal. apply (ext_object _ _ _ X), A. right. exact (in_map snd _ _ Hz).
Qed.

Lemma clone_drop_ok : forall l w, lists_ok w -> (forall p, In p l -> alive (w_h w) p) ->
  exists w', clone_drop l w = Ok w' /\ ext w w' /\ lists_ok w'.
Proof.
  induction l as [|p l IH]; intros w L A; cbn [clone_drop].
  - exists w. auto using ext_refl.
  - destruct (clone_ok p w L) as (w1 & q & E & X & L1 & _); [apply A; left; reflexivity|]. rewrite E. cbn [bind].
    destruct (IH w1 L1) as (w2 & E2 & X2 & L2); [intros z Hz; apply (ext_alive _ _ _ X), A; right; exact Hz|].
    exists w2. split; [exact E2|]. split; [exact (ext_trans _ _ _ X X2)|exact L2].
Qed.

Lemma clone_mh_ok : forall m p w, lists_ok w -> alive_o (w_h w) m -> alive_o (w_h w) p ->
  (m <> None -> p <> None) ->
  exists w' q, clone_mh m p w = Ok (w', q) /\ ext w w' /\ lists_ok w' /\ news w w' (opt q) /\ (m = None <-> q = None).
Proof.
  intros [m|] p w L Am Ap H; cbn [clone_mh].
  - destruct (clone_ok m w L (Am m eq_refl)) as (w1 & q & E & X & L1 & Q & Ln & _). rewrite E. cbn [bind].
    destruct p as [p|]; [|exfalso; apply H; [discriminate|reflexivity]].
    destruct (ext_alive _ _ _ X (Ap p eq_refl)) as (c & N). unfold deref, hget. rewrite N. cbn [bind].
    exists w1, (Some q). split; [reflexivity|]. split; [exact X|]. split; [exact L1|].
    split; [split; [repeat constructor; auto|]; intros r [<-|[]]; lia|]. split; discriminate.
  - exists w, None. split; [reflexivity|]. split; [apply ext_refl|]. split; [exact L|]. split; [apply news_nil|].
    split; reflexivity.
Qed.
Lemma clone_mh_null : forall m w, lists_ok w -> alive_o (w_h w) (Some m) -> clone_mh (Some m) None w = NullDeref.
Proof.
  intros m w L A. cbn. destruct (clone_ok m w L (A m eq_refl)) as (w1 & q & E & _). rewrite E. reflexivity.
Qed.

(** What a set-up owns, in the order of the destructor. *)
Definition owned (u : setup) : list nat :=
  (if peqb (u_nls u) (u_cts u) then [] else opt (u_nls u)) ++ opt (u_cts u) ++ opt (u_br u) ++
  map snd (u_cg u) ++ u_heu u ++ u_ob u ++ opt (u_mh u).
(** The option lists a set-up uses. *)
Definition lists_of (h : heap) (u : setup) : list nat := opt (u_opt u) ++ opt (its_o h (u_nls u)) ++ opt (its_o h (u_cts u)).

Lemma owned_parts : forall u p, In p (owned u) <->
  u_nls u = Some p \/ u_cts u = Some p \/ u_br u = Some p \/ In p (map snd (u_cg u)) \/ In p (u_heu u) \/ In p (u_ob u) \/ u_mh u = Some p.
Proof.
  intros u p. unfold owned. rewrite !in_app_iff.
  assert (K : forall o, In p (opt o) <-> o = Some p).
  { intros [x|]; cbn; split; try tauto; try discriminate.
    - intros [-> | []]. reflexivity.
    - intros E. injection E as ->. auto. }
  rewrite !K. destruct (peqb (u_nls u) (u_cts u)) eqn:E; [|rewrite K; tauto].
  assert (u_nls u = u_cts u) as ->.
  { unfold peqb in E. destruct (u_nls u), (u_cts u); try discriminate; [apply Nat.eqb_eq in E; congruence|reflexivity]. }
  cbn. tauto.
Qed.

Lemma peqb_ok : forall a b, peqb a b = true <-> a = b.
Proof.
  intros [a|] [b|]; cbn; split; intros H; try discriminate; try reflexivity.
  - apply Nat.eqb_eq in H. congruence.
  - injection H as ->. apply Nat.eqb_refl.
Qed.

(** What a copy reads. *)
Record readable (w : world) (u : setup) : Prop := mkRd {
  rd_nls : alive_o (w_h w) (u_nls u); rd_cts : alive_o (w_h w) (u_cts u); rd_br : alive_o (w_h w) (u_br u);
  rd_mh : alive_o (w_h w) (u_mh u); rd_cg : forall p, In p (map snd (u_cg u)) -> alive (w_h w) p;
  rd_ob : forall p, In p (u_ob u) -> alive (w_h w) p }.
Definition opt_ok (w : world) (u : setup) : Prop := forall q, u_opt u = Some q -> (q < length (w_ol w))%nat.

Lemma ext_alive_o : forall w w' p, ext w w' -> alive_o (w_h w) p -> alive_o (w_h w') p.
Proof. intros w w' p X A q E. exact (ext_alive _ _ _ X (A q E)). Qed.
Lemma news_alive : forall w w' q, ext w w' -> news w w' (opt q) -> alive_o (w_h w') q.
Proof. intros w w' q X (_ & R) r ->. apply (ext_new _ _ _ X), R. left. reflexivity. Qed.
Lemma ext_object_o : forall w w' p, ext w w' -> alive_o (w_h w) p -> object_o (w_h w') p = object_o (w_h w) p.
Proof. intros w w' [p|] X A; [|reflexivity]. exact (ext_object _ _ _ X (A p eq_refl)). Qed.
Lemma ext_its_o : forall w w' p, ext w w' -> alive_o (w_h w) p -> its_o (w_h w') p = its_o (w_h w) p.
Proof. intros w w' [p|] X A; [|reflexivity]. exact (ext_its _ _ _ X (A p eq_refl)). Qed.
Lemma ext_list_of : forall w w' o, ext w w' -> (forall q, o = Some q -> (q < length (w_ol w))%nat) -> list_of w' o = list_of w o.
Proof.
  intros w w' [q|] X H; [|reflexivity]. cbn. specialize (H q eq_refl).
  destruct (nth_error (w_ol w) q) eqn:N; [exact (ext_list _ _ _ _ X N)|]. apply nth_error_None in N. lia.
Qed.
Lemma lfresh_ext : forall a b c d o, ext a b -> ext c d -> lfresh b c o -> lfresh a d o.
Proof. intros a b c d o X Y H r E. pose proof (ext_oll _ _ X). pose proof (ext_oll _ _ Y). specialize (H r E). lia. Qed.
Lemma its_bound : forall w p q, lists_ok w -> its_o (w_h w) p = Some q -> (q < length (w_ol w))%nat.
Proof.
  intros w [p|] q L E; [|discriminate]. cbn in E. unfold its_list in E.
  destruct (nth_error (w_h w) p) as [[c|]|] eqn:N; try discriminate. exact (L _ _ _ N E).
Qed.

(** The parts of a copy, as it is made. *)
Record made (w w' : world) (u u' : setup) (extra : list nat) : Prop := mkMade {
  md_ext : ext w w'; md_lists : lists_ok w';
  md_cg : map (fun g => (fst g, object (w_h w') (snd g))) (u_cg u') = map (fun g => (fst g, object (w_h w) (snd g))) (u_cg u);
  md_br : object_o (w_h w') (u_br u') = object_o (w_h w) (u_br u);
  md_opt : list_of w' (u_opt u') = list_of w (u_opt u);
  md_optn : u_opt u = None <-> u_opt u' = None;
  md_optf : lfresh w w' (u_opt u');
  md_heu : u_heu u' = []; md_ob : u_ob u' = u_ob u; md_par : u_par u' = u_par u; md_pref : u_pref u' = u_pref u;
  md_new : news w w' (extra ++ opt (u_mh u') ++ map snd (u_cg u') ++ opt (u_br u')) }.

Lemma copy_ok : forall u w, lists_ok w -> readable w u -> opt_ok w u -> (u_mh u <> None -> u_cts u <> None) ->
  exists w' u', copy u w = Ok (w', u') /\ made w w' u u' (opt (u_nls u') ++ opt (u_cts u')) /\
    object_o (w_h w') (u_nls u') = object_o (w_h w) (u_nls u) /\
    object_o (w_h w') (u_cts u') = object_o (w_h w) (u_cts u) /\
    (u_nls u = None <-> u_nls u' = None) /\ (u_cts u = None <-> u_cts u' = None) /\
    lfresh w w' (its_o (w_h w') (u_nls u')) /\ lfresh w w' (its_o (w_h w') (u_cts u')) /\
    (forall a b, its_o (w_h w') (u_nls u') = Some a -> u_opt u' = Some b -> (a < b)%nat) /\
    (u_mh u = None <-> u_mh u' = None) /\
    list_of w' (its_o (w_h w') (u_nls u')) = list_of w (its_o (w_h w) (u_nls u)).
Proof.
  intros u w L [An Ac Ab Am Ag Ao] Op Hm. unfold copy.
  destruct (clone_o_ok (u_nls u) w L An) as (w1 & n & E1 & X1 & L1 & N1 & O1 & Z1 & F1 & S1). rewrite E1. cbn [bind].
  destruct (clone_o_ok (u_cts u) w1 L1 (ext_alive_o _ _ _ X1 Ac)) as (w2 & c & E2 & X2 & L2 & N2 & O2 & Z2 & F2 & _). rewrite E2. cbn [bind].
  pose proof (ext_trans _ _ _ X1 X2) as Y2.
  destruct (clone_mh_ok (u_mh u) c w2 L2 (ext_alive_o _ _ _ Y2 Am) (news_alive _ _ _ X2 N2)) as (w3 & m & E3 & X3 & L3 & N3 & Z3).
  { intros H K. apply Hm; [exact H|]. apply Z2. exact K. }
  rewrite E3. cbn [bind]. pose proof (ext_trans _ _ _ Y2 X3) as Y3.
  destruct (clone_cg_ok (u_cg u) w3 L3) as (w4 & g & E4 & X4 & L4 & N4 & O4).
  { intros p Hp. exact (ext_alive _ _ _ Y3 (Ag p Hp)). }
  rewrite E4. cbn [bind]. pose proof (ext_trans _ _ _ Y3 X4) as Y4.
  destruct (clone_o_ok (u_br u) w4 L4 (ext_alive_o _ _ _ Y4 Ab)) as (w5 & b & E5 & X5 & L5 & N5 & O5 & Z5 & _). rewrite E5. cbn [bind].
  pose proof (ext_trans _ _ _ Y4 X5) as Y5.
  destruct (ol_copy_ok (u_opt u) w5) as (w6 & o & E6 & X6 & H6 & L6 & Z6 & F6).
  { intros q Hq. pose proof (Op q Hq). pose proof (ext_oll _ _ Y5). lia. }
  rewrite E6. cbn [bind]. pose proof (ext_trans _ _ _ Y5 X6) as Y6.
  assert (L6' : lists_ok w6).
  { intros p x y Np Hy. rewrite H6 in Np. pose proof (L5 _ _ _ Np Hy). pose proof (ext_oll _ _ X6). lia. }
  destruct (clone_drop_ok (u_ob u) w6 L6') as (w7 & E7 & X7 & L7).
  { intros p Hp. exact (ext_alive _ _ _ Y6 (Ao p Hp)). }
  rewrite E7. cbn [bind]. pose proof (ext_trans _ _ _ Y6 X7) as Y7.
  do 2 eexists. split; [reflexivity|]. cbn [u_nls u_cts u_cg u_br u_opt u_mh u_heu u_ob u_par u_pref].
  pose proof (ext_trans _ _ _ X6 X7) as V5. pose proof (ext_trans _ _ _ X5 V5) as V4.
  pose proof (ext_trans _ _ _ X4 V4) as V3. pose proof (ext_trans _ _ _ X3 V3) as V2. pose proof (ext_trans _ _ _ X2 V2) as V1.
  assert (Bn : alive_o (w_h w1) n) by (exact (news_alive _ _ _ X1 N1)).
  assert (Bc : alive_o (w_h w2) c) by (exact (news_alive _ _ _ X2 N2)).
  assert (Bb : alive_o (w_h w5) b) by (exact (news_alive _ _ _ X5 N5)).
  assert (Bg : forall p, In p (map snd g) -> alive (w_h w4) p).
  { intros p Hp. apply (ext_new _ _ _ X4), N4. exact Hp. }
  split; [constructor; cbn [u_nls u_cts u_cg u_br u_opt u_mh u_heu u_ob u_par u_pref]; auto|].
  - transitivity (map (fun g => (fst g, object (w_h w4) (snd g))) g).
    + apply map_ext_in. intros [f z] Hz. cbn. f_equal. apply (ext_object _ _ _ V4), Bg. exact (in_map snd _ _ Hz).
    + rewrite O4. apply map_ext_in. intros [f z] Hz. cbn. f_equal. apply (ext_object _ _ _ Y3), Ag. exact (in_map snd _ _ Hz).
  - rewrite (ext_object_o _ _ _ V5 Bb), O5. apply (ext_object_o _ _ _ Y4 Ab).
  - rewrite (ext_list_of w6 w7); auto.
    + rewrite L6. apply ext_list_of; auto.
    + intros q Hq. destruct (F6 q Hq). lia.
  - intros q Hq. destruct (F6 q Hq) as (-> & Q). pose proof (ext_oll _ _ Y5). pose proof (ext_oll _ _ X7). lia.
  - rewrite <- app_assoc.
    apply (news_app w w1 w1 w7); auto using ext_refl.
    apply (news_app w1 w2 w2 w7); auto using ext_refl.
    apply (news_app w2 w3 w3 w7); auto using ext_refl.
    apply (news_app w3 w4 w4 w7); auto using ext_refl.
    rewrite <- (app_nil_r (opt b)). apply (news_app w4 w5 w5 w7); auto using ext_refl, news_nil.
  - split; [rewrite (ext_object_o _ _ _ V1 Bn); exact O1|].
    split; [rewrite (ext_object_o _ _ _ V2 Bc), O2; apply (ext_object_o _ _ _ X1 Ac)|].
    split; [exact Z1|]. split; [exact Z2|].
    split; [rewrite (ext_its_o _ _ _ V1 Bn); exact (lfresh_ext _ _ _ _ _ (ext_refl _) V1 F1)|].
    split; [rewrite (ext_its_o _ _ _ V2 Bc); exact (lfresh_ext _ _ _ _ _ X1 V2 F2)|].
    split; [|split].
    + intros x y Hx Hy. rewrite (ext_its_o _ _ _ V1 Bn) in Hx. destruct (F6 y Hy) as (-> & _).
      specialize (F1 x Hx). pose proof (ext_oll _ _ X2). pose proof (ext_oll _ _ X3). pose proof (ext_oll _ _ X4).
      pose proof (ext_oll _ _ X5). lia.
    + exact Z3.
    + rewrite (ext_its_o _ _ _ V1 Bn), <- S1. apply ext_list_of; auto. intros q Hq. exact (its_bound _ _ _ L1 Hq).
Qed.

Lemma copy_null : forall u w, lists_ok w -> readable w u -> u_mh u <> None -> u_cts u = None -> copy u w = NullDeref.
Proof.
  intros u w L [An Ac Ab Am Ag Ao] Hm Hc. unfold copy.
  destruct (clone_o_ok (u_nls u) w L An) as (w1 & n & E1 & X1 & L1 & N1 & O1 & Z1 & F1 & _). rewrite E1. cbn [bind].
  rewrite Hc. cbn [clone_o bind]. destruct (u_mh u) as [m|]; [|destruct (Hm eq_refl)].
  rewrite clone_mh_null; auto. exact (ext_alive_o _ _ _ X1 Am).
Qed.

(** A new interface to an NLP. *)
Lemma new_nlp_ok : forall v w w' p, lists_ok w -> new_nlp v w = (w', p) ->
  ext w w' /\ lists_ok w' /\ p = length (w_h w) /\ length (w_h w') = S p /\
  its_list (w_h w') p = Some (length (w_ol w)) /\ length (w_ol w') = S (length (w_ol w)) /\
  object (w_h w') p = Some v.
Proof.
  intros v w w' p L E. unfold new_nlp, w_new, hnew in E. cbn [w_h w_ol w_su] in E. injection E as <- <-.
  split; [|split; [|split; [reflexivity|split; [cbn; rewrite app_length; cbn; lia|split; [|split]]]]].
  - split; [reflexivity|]. cbn. split; [eexists; split; [reflexivity|repeat constructor; discriminate]|eexists; reflexivity].
  - intros q c r N H. cbn in *. rewrite app_length. cbn.
    destruct (Nat.lt_ge_cases q (length (w_h w))) as [G|G].
    + rewrite nth_error_app1 in N by exact G. pose proof (L _ _ _ N H). lia.
    + rewrite nth_error_app2 in N by exact G. destruct (q - length (w_h w))%nat as [|k]; cbn in N; [|destruct k; discriminate].
      injection N as <-. cbn in H. injection H as <-. lia.
  - unfold its_list. cbn. rewrite nth_error_app2, Nat.sub_diag by lia. reflexivity.
  - cbn. rewrite app_length. cbn. lia.
  - unfold object. cbn. rewrite nth_error_app2, Nat.sub_diag by lia. reflexivity.
Qed.

Lemma copy_nlp_ok : forall u p w, lists_ok w -> alive_o (w_h w) (u_br u) -> alive_o (w_h w) (u_mh u) ->
  (forall p, In p (map snd (u_cg u)) -> alive (w_h w) p) -> (forall p, In p (u_ob u) -> alive (w_h w) p) -> opt_ok w u -> alive (w_h w) p ->
  (u_mh u <> None -> u_cts u = u_nls u) -> u_opt u <> None -> u_nls u <> None ->
  exists w' u', copy_nlp u p w = Ok (w', u') /\ u_nls u' = Some p /\
    (u_cts u = u_nls u /\ u_cts u' = Some p /\ made w w' u u' [] \/
     exists q, u_cts u <> u_nls u /\ u_cts u' = Some q /\ (length (w_h w) <= q)%nat /\ its_list (w_h w') q = None /\
       exists w1, made w w1 u u' [] /\ ext w1 w' /\ lists_ok w' /\ w_ol w' = w_ol w1 /\ news w1 w' [q]) /\
    (u_mh u = None <-> u_mh u' = None) /\ u_opt u' <> None.
Proof.
  intros u p w L Ab Am Ag Ao Op Ap Hm Ho Hn. unfold copy_nlp.
  set (c := if peqb (u_cts u) (u_nls u) then Some p else None).
  assert (Cc : alive_o (w_h w) c).
  { unfold c. destruct (peqb _ _); intros q Hq; [injection Hq as <-; exact Ap|discriminate]. }
  destruct (clone_mh_ok (u_mh u) c w L Am Cc) as (w3 & m & E3 & X3 & L3 & N3 & Z3).
  { intros H K. specialize (Hm H). apply peqb_ok in Hm. unfold c in K. rewrite Hm in K. discriminate. }
  rewrite E3. cbn [bind].
  destruct (clone_cg_ok (u_cg u) w3 L3) as (w4 & g & E4 & X4 & L4 & N4 & O4).
  { intros z Hz. exact (ext_alive _ _ _ X3 (Ag z Hz)). }
  rewrite E4. cbn [bind]. pose proof (ext_trans _ _ _ X3 X4) as Y4.
  destruct (clone_o_ok (u_br u) w4 L4 (ext_alive_o _ _ _ Y4 Ab)) as (w5 & b & E5 & X5 & L5 & N5 & O5 & Z5 & _). rewrite E5. cbn [bind].
  pose proof (ext_trans _ _ _ Y4 X5) as Y5.
  destruct (ol_copy_ok (u_opt u) w5) as (w6 & o & E6 & X6 & H6 & L6 & Z6 & F6).
  { intros q Hq. pose proof (Op q Hq). pose proof (ext_oll _ _ Y5). lia. }
  rewrite E6. cbn [bind]. pose proof (ext_trans _ _ _ Y5 X6) as Y6.
  assert (L6' : lists_ok w6).
  { intros z x y Np Hy. rewrite H6 in Np. pose proof (L5 _ _ _ Np Hy). pose proof (ext_oll _ _ X6). lia. }
  destruct (clone_drop_ok (u_ob u) w6 L6') as (w7 & E7 & X7 & L7).
  { intros z Hz. exact (ext_alive _ _ _ Y6 (Ao z Hz)). }
  rewrite E7. cbn [bind]. pose proof (ext_trans _ _ _ Y6 X7) as Y7.
  pose proof (ext_trans _ _ _ X6 X7) as V5. pose proof (ext_trans _ _ _ X5 V5) as V4.
  pose proof (ext_trans _ _ _ X4 V4) as V3.
  assert (Bb : alive_o (w_h w5) b) by (exact (news_alive _ _ _ X5 N5)).
  assert (Bg : forall z, In z (map snd g) -> alive (w_h w4) z).
  { intros z Hz. apply (ext_new _ _ _ X4), N4. exact Hz. }
  assert (Md : forall n c', made w w7 u (mkSu n c' g [] b (u_ob u) m o (u_par u) (u_pref u) (u_read u)) []).
  { intros n c'. constructor; cbn [u_nls u_cts u_cg u_br u_opt u_mh u_heu u_ob u_par u_pref]; auto.
    - transitivity (map (fun g => (fst g, object (w_h w4) (snd g))) g).
      + apply map_ext_in. intros [f z] Hz. cbn. f_equal. apply (ext_object _ _ _ V4), Bg. exact (in_map snd _ _ Hz).
      + rewrite O4. apply map_ext_in. intros [f z] Hz. cbn. f_equal. apply (ext_object _ _ _ X3), Ag. exact (in_map snd _ _ Hz).
    - rewrite (ext_object_o _ _ _ V5 Bb), O5. apply (ext_object_o _ _ _ Y4 Ab).
    - rewrite (ext_list_of w6 w7); auto.
      + rewrite L6. apply ext_list_of; auto.
      + intros q Hq. destruct (F6 q Hq). lia.
    - intros q Hq. destruct (F6 q Hq) as (-> & Q). pose proof (ext_oll _ _ Y5). pose proof (ext_oll _ _ X7). lia.
    - cbn [app].
      apply (news_app w w3 w3 w7); auto using ext_refl.
      apply (news_app w3 w4 w4 w7); auto using ext_refl.
      rewrite <- (app_nil_r (opt b)). apply (news_app w4 w5 w5 w7); auto using ext_refl, news_nil. }
  assert (On : o <> None) by (intros K; apply Ho, Z6, K).
  subst c. destruct (peqb (u_cts u) (u_nls u)) eqn:P.
  - cbn [bind]. destruct (u_nls u) as [n0|] eqn:N0; [|destruct (Hn eq_refl)]. cbn [bind].
    do 2 eexists. split; [reflexivity|]. split; [reflexivity|]. split; [|split; [exact Z3|exact On]].
    left. split; [apply peqb_ok; exact P|]. split; [reflexivity|apply Md].
  - destruct (u_opt u) as [q0|] eqn:Q0; [|destruct (Ho eq_refl)].
    destruct (w_new (plain 0) w7) as [w8 q] eqn:E8. cbn [bind].
    destruct (w_new_ok _ _ _ _ E8) as (X8 & Qq & Ln & Ol & Nq).
    do 2 eexists. split; [reflexivity|]. split; [reflexivity|]. split; [|split; [exact Z3|exact On]].
    right. exists q. split; [intros K; apply peqb_ok in K; congruence|]. split; [reflexivity|].
    split; [pose proof (ext_len _ _ Y7); lia|]. split; [unfold its_list; rewrite Nq; reflexivity|].
    exists w7. split; [apply Md|]. split; [exact X8|]. split; [|split; [exact Ol|]].
    + apply (lists_ok_new _ _ _ _ E8 L7). cbn. discriminate.
    + split; [repeat constructor; auto|]. intros z [<-|[]]. lia.
Qed.
Lemma copy_nlp_null : forall u p w, lists_ok w -> alive_o (w_h w) (u_mh u) -> u_mh u <> None -> u_cts u <> u_nls u ->
  copy_nlp u p w = NullDeref.
Proof.
  intros u p w L Am Hm Hc. unfold copy_nlp.
  assert (peqb (u_cts u) (u_nls u) = false) as ->.
  { destruct (peqb _ _) eqn:P; [|reflexivity]. apply peqb_ok in P. contradiction. }
  destruct (u_mh u) as [m|]; [|destruct (Hm eq_refl)]. rewrite clone_mh_null; auto.
Qed.

Lemma copy_pre_ok : forall u p pref same w, lists_ok w -> alive_o (w_h w) (u_mh u) ->
  (forall p, In p (u_ob u) -> alive (w_h w) p) -> opt_ok w u -> alive (w_h w) p -> u_opt u <> None ->
  exists w' u', copy_pre u p pref same w = Ok (w', u') /\ u_nls u' = Some p /\ ext w w' /\ lists_ok w' /\
    (exists q, u_cts u' = Some q /\ (if same then q = p else (length (w_h w) <= q)%nat /\ its_list (w_h w') q = None)) /\
    news w w' ((if same then [] else opt (u_cts u')) ++ opt (u_mh u')) /\
    u_cg u' = [] /\ u_heu u' = [] /\ u_br u' = None /\ u_ob u' = u_ob u /\ u_par u' = defaults /\ u_pref u' = pref /\
    list_of w' (u_opt u') = list_of w (u_opt u) /\ u_opt u' <> None /\ lfresh w w' (u_opt u') /\
    (u_mh u = None <-> u_mh u' = None).
Proof.
  intros u p pref same w L Am Ao Op Ap Ho. unfold copy_pre.
  destruct (ol_copy_ok (u_opt u) w Op) as (w6 & o & E6 & X6 & H6 & L6 & Z6 & F6).
  rewrite E6. cbn [bind].
  assert (L6' : lists_ok w6).
  { intros z x y Np Hy. rewrite H6 in Np. pose proof (L _ _ _ Np Hy). pose proof (ext_oll _ _ X6). lia. }
  destruct (clone_mh_ok (u_mh u) (Some p) w6 L6' (ext_alive_o _ _ _ X6 Am)) as (w3 & m & E3 & X3 & L3 & N3 & Z3).
  { intros q Hq. injection Hq as <-. exact (ext_alive _ _ _ X6 Ap). }
  { discriminate. }
  rewrite E3. cbn [bind]. pose proof (ext_trans _ _ _ X6 X3) as Y3.
  destruct (u_opt u) as [q0|] eqn:Q0; [|destruct (Ho eq_refl)]. cbn [bind].
  destruct (clone_drop_ok (u_ob u) w3 L3) as (w7 & E7 & X7 & L7).
  { intros z Hz. exact (ext_alive _ _ _ Y3 (Ao z Hz)). }
  rewrite E7. cbn [bind]. pose proof (ext_trans _ _ _ Y3 X7) as Y7.
  assert (Lo : forall w', ext w7 w' -> list_of w' o = list_of w (Some q0) /\ lfresh w w' o).
  { intros w' X. pose proof (ext_trans _ _ _ (ext_trans _ _ _ X3 X7) X) as X'. split.
    - rewrite (ext_list_of w6 w'); auto. intros q Hq. destruct (F6 q Hq). lia.
    - intros q Hq. destruct (F6 q Hq) as (-> & K). pose proof (ext_oll _ _ X'). lia. }
  assert (On : o <> None) by (intros K; apply Z6 in K; discriminate).
  assert (Nm : forall w', ext w7 w' -> news w w' (opt m)).
  { intros w' X. destruct N3 as (D & R). split; [exact D|]. intros z Hz. specialize (R z Hz).
    pose proof (ext_len _ _ X6). pose proof (ext_len _ _ (ext_trans _ _ _ X7 X)). lia. }
  destruct same.
  - cbn. do 2 eexists. split; [reflexivity|]. cbn. split; [reflexivity|]. split; [exact Y7|]. split; [exact L7|].
    split; [exists p; auto|]. split; [apply Nm, ext_refl|]. do 6 (split; [reflexivity|]).
    destruct (Lo w7 (ext_refl _)). auto.
  - destruct (w_new (plain 0) w7) as [w8 q] eqn:E8.
    destruct (w_new_ok _ _ _ _ E8) as (X8 & Qq & Ln & Ol & Nq).
    do 2 eexists. split; [reflexivity|]. cbn [u_nls u_cts u_cg u_br u_opt u_mh u_heu u_ob u_par u_pref].
    split; [reflexivity|]. split; [exact (ext_trans _ _ _ Y7 X8)|].
    split; [apply (lists_ok_new _ _ _ _ E8 L7); cbn; discriminate|].
    split; [exists q; split; [reflexivity|]; split; [pose proof (ext_len _ _ Y7); lia|unfold its_list; rewrite Nq; reflexivity]|].
    split.
    { split.
      - cbn. constructor; [|exact (proj1 N3)]. intros K. destruct N3 as (_ & R). specialize (R _ K).
        pose proof (ext_len _ _ X7). lia.
      - intros z Hz. cbn in Hz. destruct Hz as [<-|Hz]; [pose proof (ext_len _ _ Y7); lia|]. apply (Nm w8 X8). exact Hz. }
    do 6 (split; [reflexivity|]). destruct (Lo w8 X8). auto.
Qed.

(** ** Copies that were made had everything they read *)
Definition below (w : world) (u : setup) : Prop := forall p, In p (owned u) -> (p < length (w_h w))%nat.
Lemma alive_or : forall h p, (p < length h)%nat -> alive h p \/ nth_error h p = Some None.
Proof.
  intros h p H. destruct (nth_error h p) as [[c|]|] eqn:N; [left; exists c; exact N|right; reflexivity|].
  apply nth_error_None in N. lia.
Qed.
Lemma dead_clone : forall w w1 p, ext w w1 -> nth_error (w_h w) p = Some None -> clone p w1 = Dangling.
Proof. intros w w1 p X N. unfold clone, hget. rewrite (ext_cell _ _ _ _ X N). reflexivity. Qed.
Lemma clone_o_inv : forall w w1 p r, ext w w1 -> lists_ok w1 -> (forall q, p = Some q -> (q < length (w_h w))%nat) ->
  clone_o p w1 = Ok r -> alive_o (w_h w) p /\ ext w (fst r) /\ lists_ok (fst r) /\ (p = None <-> snd r = None).
Proof.
  intros w w1 p r X L B E. assert (A : alive_o (w_h w) p).
  { intros q ->. destruct (alive_or _ _ (B q eq_refl)) as [A|D]; [exact A|]. cbn in E. rewrite (dead_clone _ _ _ X D) in E. discriminate. }
  destruct (clone_o_ok p w1 L (ext_alive_o _ _ _ X A)) as (w2 & q & E2 & X2 & L2 & _ & _ & Z & _). rewrite E2 in E. injection E as <-.
  cbn. split; [exact A|]. split; [exact (ext_trans _ _ _ X X2)|]. split; [exact L2|exact Z].
Qed.
Lemma clone_cg_inv : forall l w w1 r, ext w w1 -> lists_ok w1 -> (forall q, In q (map snd l) -> (q < length (w_h w))%nat) ->
  clone_cg l w1 = Ok r -> (forall q, In q (map snd l) -> alive (w_h w) q) /\ ext w (fst r) /\ lists_ok (fst r).
Proof.
  intros l w w1 r X L B E. assert (A : forall q, In q (map snd l) -> alive (w_h w) q).
  { clear L. revert w1 r X E B. induction l as [|[f p] l IH]; intros w1 r X E B q H; [destruct H|].
    cbn [clone_cg] in E. destruct (clone p w1) as [[w2 z]| | | | | | |] eqn:C; try discriminate. cbn [bind] in E.
    assert (Ap : alive (w_h w) p).
    { destruct (alive_or (w_h w) p) as [A|D]; [apply B; left; reflexivity|exact A|].
      rewrite (dead_clone _ _ _ X D) in C. discriminate. }
    destruct H as [<-|H]; [exact Ap|].
    destruct (clone_cg l w2) as [[w3 g]| | | | | | |] eqn:C2; try discriminate.
    refine (IH w2 _ _ C2 _ q H); [|intros y Hy; apply B; right; exact Hy].
    apply (ext_trans _ _ _ X). destruct (ext_alive _ _ _ X Ap) as (c & N). unfold clone, hget in C. rewrite N in C. cbn [bind] in C.
    destruct (ol_copy (e_opt c) w1) as [[w4 o]| | | | | | |] eqn:C4; try discriminate. cbn [bind] in C.
    assert (C' : w_new (mkCell (e_what c) o) w4 = (w2, z)) by (injection C as <- <-; reflexivity).
    destruct (w_new_ok _ _ _ _ C') as (X5 & _). apply (ext_trans _ w4); [|exact X5].
    unfold ol_copy in C4. destruct (e_opt c); [|injection C4 as <- <-; apply ext_refl].
    destruct (nth_error (w_ol w1) n) as [l0|]; [|discriminate]. injection C4 as <- <-.
    split; [reflexivity|]. split; [exists []; cbn; rewrite app_nil_r; auto|exists [l0]; reflexivity]. }
  destruct (clone_cg_ok l w1 L) as (w2 & g & E2 & X2 & L2 & _); [intros q Hq; exact (ext_alive _ _ _ X (A q Hq))|].
  rewrite E2 in E. injection E as <-. cbn. split; [exact A|]. split; [exact (ext_trans _ _ _ X X2)|exact L2].
Qed.
Lemma clone_drop_cg : forall l w, clone_drop l w = do ' (w, _) <- clone_cg (map (fun p => (0%Z, p)) l) w; Ok w.
Proof.
  induction l as [|p l IH]; intros w; cbn [clone_drop clone_cg map]; [reflexivity|].
  destruct (clone p w) as [[w1 q]| | | | | | |]; try reflexivity. cbn [bind]. rewrite IH.
  destruct (clone_cg _ w1) as [[w2 g]| | | | | | |]; reflexivity.
Qed.
Lemma clone_drop_inv : forall l w w1 r, ext w w1 -> lists_ok w1 -> (forall q, In q l -> (q < length (w_h w))%nat) ->
  clone_drop l w1 = Ok r -> forall q, In q l -> alive (w_h w) q.
Proof.
  intros l w w1 r X L B E. rewrite clone_drop_cg in E.
  destruct (clone_cg _ w1) as [g| | | | | | |] eqn:C; try discriminate.
  assert (M : map snd (map (fun p => (0%Z, p)) l) = l) by (rewrite map_map; cbn; apply map_id).
  pose proof (clone_cg_inv (map (fun p => (0%Z, p)) l) w w1 g X L) as I. rewrite M in I. exact (proj1 (I B C)).
Qed.
Lemma clone_mh_inv : forall w w1 m p r, ext w w1 -> lists_ok w1 -> (forall q, m = Some q -> (q < length (w_h w))%nat) ->
  clone_mh m p w1 = Ok r -> alive_o (w_h w) m /\ (m <> None -> p <> None) /\ ext w (fst r) /\ lists_ok (fst r).
Proof.
  intros w w1 [m|] p r X L B E; cbn [clone_mh] in E.
  - destruct (alive_or _ _ (B m eq_refl)) as [A|D]; [|rewrite (dead_clone _ _ _ X D) in E; discriminate].
    destruct (clone_ok m w1 L (ext_alive _ _ _ X A)) as (w2 & q & E2 & X2 & L2 & _). rewrite E2 in E. cbn [bind] in E.
    destruct (deref p (w_h w2)) as [[]| | | | | | |] eqn:Dp; try discriminate. cbn [bind] in E. injection E as <-. cbn.
    split; [intros z Hz; injection Hz as <-; exact A|]. split; [intros _ ->; discriminate|].
    split; [exact (ext_trans _ _ _ X X2)|exact L2].
  - injection E as <-. cbn. split; [intros q; discriminate|]. split; [intros H; destruct (H eq_refl)|]. auto.
Qed.
Lemma ol_copy_inv : forall w w1 o r, ext w w1 -> lists_ok w1 -> ol_copy o w1 = Ok r -> ext w (fst r) /\ lists_ok (fst r).
Proof.
  intros w w1 o r X L E. unfold ol_copy in E. destruct o as [q|]; [|injection E as <-; auto].
  destruct (nth_error (w_ol w1) q) as [l|]; [|discriminate]. injection E as <-. cbn. split.
  - apply (ext_trans _ _ _ X). split; [reflexivity|]. split; [exists []; cbn; rewrite app_nil_r; auto|exists [l]; reflexivity].
  - intros p c z N H. cbn in *. rewrite app_length. cbn. pose proof (L _ _ _ N H). lia.
Qed.
Lemma below_parts : forall w u, below w u ->
  (forall q, u_nls u = Some q -> (q < length (w_h w))%nat) /\ (forall q, u_cts u = Some q -> (q < length (w_h w))%nat) /\
  (forall q, u_br u = Some q -> (q < length (w_h w))%nat) /\ (forall q, u_mh u = Some q -> (q < length (w_h w))%nat) /\
  (forall q, In q (map snd (u_cg u)) -> (q < length (w_h w))%nat) /\ (forall q, In q (u_ob u) -> (q < length (w_h w))%nat).
Proof. intros w u B. repeat split; intros q H; apply B, owned_parts; tauto. Qed.

Ltac step_in E :=
  match type of E with
  | bind ?o _ = _ => let C := fresh "C" in destruct o as [?r| | | | | | |] eqn:C; try discriminate; cbn [bind] in E
  end.
Lemma copy_inv : forall u w r, lists_ok w -> below w u ->
  copy u w = Ok r -> alive_o (w_h w) (u_nls u) /\ alive_o (w_h w) (u_cts u) /\ alive_o (w_h w) (u_mh u) /\
    (forall q, In q (map snd (u_cg u)) -> alive (w_h w) q) /\ alive_o (w_h w) (u_br u) /\
    (forall q, In q (u_ob u) -> alive (w_h w) q) /\ (u_mh u <> None -> u_cts u <> None).
Proof.
  intros u w r L B E. destruct (below_parts _ _ B) as (B1 & B2 & B3 & B4 & B5 & B6). unfold copy in E.
  step_in E. destruct r0 as [w1 n]. destruct (clone_o_inv w w _ _ (ext_refl w) L B1 C) as (A1 & X1 & L1 & Z1).
  step_in E. destruct r0 as [w2 c]. destruct (clone_o_inv w w1 _ _ X1 L1 B2 C0) as (A2 & X2 & L2 & Z2).
  step_in E. destruct r0 as [w3 m]. destruct (clone_mh_inv w w2 _ _ _ X2 L2 B4 C1) as (A3 & Z3 & X3 & L3).
  step_in E. destruct r0 as [w4 g]. destruct (clone_cg_inv _ w w3 _ X3 L3 B5 C2) as (A4 & X4 & L4).
  step_in E. destruct r0 as [w5 b]. destruct (clone_o_inv w w4 _ _ X4 L4 B3 C3) as (A5 & X5 & L5 & Z5).
  step_in E. destruct r0 as [w6 o]. destruct (ol_copy_inv w w5 _ _ X5 L5 C4) as (X6 & L6).
  step_in E. pose proof (clone_drop_inv _ w w6 _ X6 L6 B6 C5) as A7.
  do 6 (split; [assumption|]). intros H K. apply (Z3 H). apply Z2. exact K.
Qed.
Lemma copy_nlp_inv : forall u p w r, lists_ok w -> below w u -> copy_nlp u p w = Ok r ->
  alive_o (w_h w) (u_mh u) /\ (forall q, In q (map snd (u_cg u)) -> alive (w_h w) q) /\ alive_o (w_h w) (u_br u) /\
  (forall q, In q (u_ob u) -> alive (w_h w) q) /\ (u_mh u <> None -> u_cts u = u_nls u) /\
  (u_nls u = None -> u_cts u = None -> False) /\ (u_opt u = None -> u_cts u = u_nls u).
Proof.
  intros u p w r L B E. destruct (below_parts _ _ B) as (B1 & B2 & B3 & B4 & B5 & B6). unfold copy_nlp in E.
  step_in E. destruct r0 as [w3 m]. destruct (clone_mh_inv w w _ _ _ (ext_refl w) L B4 C) as (A3 & Z3 & X3 & L3).
  step_in E. destruct r0 as [w4 g]. destruct (clone_cg_inv _ w w3 _ X3 L3 B5 C0) as (A4 & X4 & L4).
  step_in E. destruct r0 as [w5 b]. destruct (clone_o_inv w w4 _ _ X4 L4 B3 C1) as (A5 & X5 & L5 & Z5).
  step_in E. destruct r0 as [w6 o]. destruct (ol_copy_inv w w5 _ _ X5 L5 C2) as (X6 & L6).
  step_in E. pose proof (clone_drop_inv _ w w6 _ X6 L6 B6 C3) as A7.
  do 4 (split; [assumption|]). split.
  - intros H. specialize (Z3 H). destruct (peqb _ _) eqn:P; [apply peqb_ok; exact P|]. destruct (Z3 eq_refl).
  - split; [intros H K; rewrite H, K in E; discriminate|]. intros H. rewrite H in E. destruct (peqb _ _) eqn:P; [apply peqb_ok; exact P|]. discriminate.
Qed.
Lemma copy_pre_inv : forall u p pref same w r, lists_ok w -> below w u -> copy_pre u p pref same w = Ok r ->
  alive_o (w_h w) (u_mh u) /\ (forall q, In q (u_ob u) -> alive (w_h w) q) /\ u_opt u <> None.
Proof.
  intros u p pref same w r L B E. destruct (below_parts _ _ B) as (B1 & B2 & B3 & B4 & B5 & B6). unfold copy_pre in E.
  step_in E. destruct r0 as [w6 o]. destruct (ol_copy_inv w w _ _ (ext_refl w) L C) as (X6 & L6).
  step_in E. destruct r0 as [w3 m]. destruct (clone_mh_inv w w6 _ _ _ X6 L6 B4 C0) as (A3 & Z3 & X3 & L3).
  step_in E. step_in E. pose proof (clone_drop_inv _ w w3 _ X3 L3 B6 C2) as A7.
  do 2 (split; [assumption|]). intros H. rewrite H in C1. discriminate.
Qed.

(** ** Invariants *)
(** [w'] keeps the objects of [w] or deletes some, and may have more objects and lists. *)
Definition grow (w w' : world) : Prop :=
  w_su w' = w_su w /\ (length (w_h w) <= length (w_h w'))%nat /\ (length (w_ol w) <= length (w_ol w'))%nat /\
  forall p, (p < length (w_h w))%nat -> nth_error (w_h w') p = nth_error (w_h w) p \/ nth_error (w_h w') p = Some None.
Lemma ext_grow : forall w w', ext w w' -> grow w w'.
Proof.
  intros w w' X. pose proof (ext_len _ _ X). pose proof (ext_oll _ _ X). split; [exact (proj1 X)|]. split; [assumption|]. split; [assumption|].
  intros p H1. left. destruct (nth_error (w_h w) p) eqn:N; [exact (ext_cell _ _ _ _ X N)|]. apply nth_error_None in N. lia.
Qed.
Lemma grow_its : forall w w' p r, grow w w' -> (forall q, p = Some q -> (q < length (w_h w))%nat) ->
  its_o (w_h w') p = Some r -> its_o (w_h w) p = Some r.
Proof.
  intros w w' [p|] r (_ & _ & _ & G) B E; [|discriminate]. cbn in *. unfold its_list in *.
  destruct (G p (B p eq_refl)) as [K|K]; rewrite K in E; [exact E|discriminate].
Qed.
Lemma in_opt : forall o p, In p (opt o) <-> o = Some p.
Proof.
  intros [x|] p; cbn; split; try tauto; try discriminate.
  - intros [-> | []]. reflexivity.
  - intros E. injection E as ->. auto.
Qed.
Lemma in_lists : forall h u q, In q (lists_of h u) <-> u_opt u = Some q \/ its_o h (u_nls u) = Some q \/ its_o h (u_cts u) = Some q.
Proof. intros h u q. unfold lists_of. rewrite !in_app_iff, !in_opt. tauto. Qed.
Lemma grow_lists : forall w w' u q, grow w w' -> below w u -> In q (lists_of (w_h w') u) -> In q (lists_of (w_h w) u).
Proof.
  intros w w' u q G B H. destruct (below_parts _ _ B) as (B1 & B2 & _). rewrite in_lists in *.
  destruct H as [H|[H|H]]; [auto|right; left; exact (grow_its _ _ _ _ G B1 H)|right; right; exact (grow_its _ _ _ _ G B2 H)].
Qed.

Record fit (w : world) (u : setup) : Prop := mkFit {
  ft_opt : opt_ok w u; ft_below : below w u;
  ft_no : u_nls u <> None -> u_opt u <> None; ft_nc : u_cts u = None <-> u_nls u = None }.
Record InvL (w : world) : Prop := mkIL {
  il_lists : lists_ok w; il_fit : forall i u, at_ w i u -> fit w u;
  il_dis : forall i j u v q, i <> j -> at_ w i u -> at_ w j v -> In q (lists_of (w_h w) u) -> In q (lists_of (w_h w) v) -> False }.
Lemma grow_fit : forall w w' u, grow w w' -> fit w u -> fit w' u.
Proof.
  intros w w' u (_ & G1 & G2 & _) [A B C D]. constructor; auto.
  - intros q H. specialize (A q H). lia.
  - intros q H. specialize (B q H). lia.
Qed.
Lemma lists_bound : forall w u q, lists_ok w -> opt_ok w u -> In q (lists_of (w_h w) u) -> (q < length (w_ol w))%nat.
Proof.
  intros w u q L A H. rewrite in_lists in H. destruct H as [H|[H|H]]; [exact (A q H)| |]; exact (its_bound _ _ _ L H).
Qed.

Lemma put_nth : forall {A} (l : list A) i v j, nth_error (put i v l) j =
  if Nat.eqb i j then (if Nat.ltb i (length l) then Some v else None) else nth_error l j.
Proof.
  induction l as [|a l IH]; intros i v j; cbn [put length].
  - destruct i, j; cbn; try reflexivity; destruct (Nat.eqb i j); reflexivity.
  - destruct i; cbn [put]; destruct j; cbn; try reflexivity. rewrite IH. reflexivity.
Qed.
Lemma put_length : forall {A} (l : list A) i v, length (put i v l) = length l.
Proof. induction l; intros [|i] v; cbn; auto. Qed.
Lemma at_put : forall i x w h ol j v, at_ (mkW h ol (put i x (w_su w))) j v ->
  (j = i /\ x = Some v) \/ (j <> i /\ at_ w j v).
Proof.
  intros i x w h ol j v H. unfold at_ in *. cbn in H. rewrite put_nth in H. destruct (Nat.eqb i j) eqn:E.
  - apply Nat.eqb_eq in E. destruct (Nat.ltb _ _); [|discriminate]. injection H as ->. auto.
  - apply Nat.eqb_neq in E. auto.
Qed.
Lemma at_push : forall x w h ol j v, at_ (mkW h ol (w_su w ++ [x])) j v ->
  (j = length (w_su w) /\ x = Some v) \/ (j <> length (w_su w) /\ at_ w j v).
Proof.
  intros x w h ol j v H. unfold at_ in *. cbn in H. destruct (Nat.lt_ge_cases j (length (w_su w))) as [G|G].
  - rewrite nth_error_app1 in H by exact G. right. split; [lia|exact H].
  - rewrite nth_error_app2 in H by exact G. destruct (j - length (w_su w))%nat as [|k] eqn:K; cbn in H; [|destruct k; discriminate].
    injection H as ->. left. split; [lia|reflexivity].
Qed.
Lemma at_lt : forall w i u, at_ w i u -> (i < length (w_su w))%nat.
Proof. intros w i u H. apply nth_error_Some. unfold at_ in H. rewrite H. discriminate. Qed.

Lemma invL_put : forall w w1 i u u', InvL w -> at_ w i u -> grow w w1 -> lists_ok w1 -> fit w1 u' ->
  (forall q, In q (lists_of (w_h w1) u') -> In q (lists_of (w_h w) u) \/ (length (w_ol w) <= q)%nat) ->
  InvL (su_put i u' w1).
Proof.
  intros w w1 i u u' [L Fi D] Hi G L1 F1 S. unfold su_put. rewrite (proj1 G).
  assert (K : forall j v q, j <> i -> at_ w j v -> In q (lists_of (w_h w1) u') -> In q (lists_of (w_h w1) v) -> False).
  { intros j v q N Hj Q1 Q2. pose proof (Fi _ _ Hj) as Fj. pose proof (grow_lists _ _ _ _ G (ft_below _ _ Fj) Q2) as Q3.
    destruct (S q Q1) as [S1|S1]; [exact (D j i v u q N Hj Hi Q3 S1)|].
    pose proof (lists_bound _ _ _ L (ft_opt _ _ Fj) Q3). lia. }
  constructor.
  - exact L1.
  - intros j v H. apply at_put in H. destruct H as [(_ & E)|(N & H)]; [injection E as <-; destruct F1; constructor; auto|].
    pose proof (grow_fit _ _ _ G (Fi _ _ H)) as [X1 X2 X3 X4]. constructor; auto.
  - cbn [w_h]. intros j k v x q N Hj Hk Q1 Q2. apply at_put in Hj. apply at_put in Hk.
    destruct Hj as [(-> & E)|(Nj & Hj)]; destruct Hk as [(-> & E')|(Nk & Hk)].
    + contradiction.
    + injection E as <-. exact (K k x q Nk Hk Q1 Q2).
    + injection E' as <-. exact (K j v q Nj Hj Q2 Q1).
    + apply (D j k v x q N Hj Hk); [exact (grow_lists _ _ _ _ G (ft_below _ _ (Fi _ _ Hj)) Q1)|exact (grow_lists _ _ _ _ G (ft_below _ _ (Fi _ _ Hk)) Q2)].
Qed.
Lemma invL_push : forall w w1 u', InvL w -> grow w w1 -> lists_ok w1 -> fit w1 u' ->
  (forall q, In q (lists_of (w_h w1) u') -> (length (w_ol w) <= q)%nat) ->
  InvL (su_push u' w1).
Proof.
  intros w w1 u' [L Fi D] G L1 F1 S. unfold su_push. rewrite (proj1 G).
  assert (K : forall j v q, at_ w j v -> In q (lists_of (w_h w1) u') -> In q (lists_of (w_h w1) v) -> False).
  { intros j v q Hj Q1 Q2. pose proof (Fi _ _ Hj) as Fj. pose proof (grow_lists _ _ _ _ G (ft_below _ _ Fj) Q2) as Q3.
    specialize (S q Q1). pose proof (lists_bound _ _ _ L (ft_opt _ _ Fj) Q3). lia. }
  constructor.
  - exact L1.
  - intros j v H. apply at_push in H. destruct H as [(_ & E)|(N & H)]; [injection E as <-; destruct F1; constructor; auto|].
    pose proof (grow_fit _ _ _ G (Fi _ _ H)) as [X1 X2 X3 X4]. constructor; auto.
  - cbn [w_h]. intros j k v x q N Hj Hk Q1 Q2. apply at_push in Hj. apply at_push in Hk.
    destruct Hj as [(-> & E)|(Nj & Hj)]; destruct Hk as [(-> & E')|(Nk & Hk)].
    + contradiction.
    + injection E as <-. exact (K k x q Hk Q1 Q2).
    + injection E' as <-. exact (K j v q Hj Q2 Q1).
    + apply (D j k v x q N Hj Hk); [exact (grow_lists _ _ _ _ G (ft_below _ _ (Fi _ _ Hj)) Q1)|exact (grow_lists _ _ _ _ G (ft_below _ _ (Fi _ _ Hk)) Q2)].
Qed.

(** *** Deleting *)
Lemma hclear_length : forall h p, length (hclear p h) = length h.
Proof. induction h; intros [|p]; cbn; auto. Qed.
Lemma hclear_nth : forall h p q, nth_error (hclear p h) q =
  if Nat.eqb p q then (if Nat.ltb p (length h) then Some None else None) else nth_error h q.
Proof.
  induction h as [|a h IH]; intros p q; cbn [hclear length].
  - destruct p, q; cbn; try reflexivity; destruct (Nat.eqb p q); reflexivity.
  - destruct p; cbn [hclear]; destruct q; cbn; try reflexivity. rewrite IH. reflexivity.
Qed.
(** A heap with some objects of [l] deleted. *)
Definition dels (l : list nat) (h h' : heap) : Prop :=
  length h' = length h /\ (forall p, ~ In p l -> nth_error h' p = nth_error h p) /\
  (forall p, In p l -> nth_error h' p = Some None).
Lemma hdel_good : forall p h, alive h p -> exists h', hdel p h = Ok h'.
Proof. intros p h (c & N). unfold hdel, hget. rewrite N. cbn. eauto. Qed.
Lemma hdel_inv : forall p h, (exists h', hdel p h = Ok h' /\ alive h p /\ dels [p] h h') \/ (hdel p h = Dangling /\ ~ alive h p).
Proof.
  intros p h. unfold hdel, hget. destruct (nth_error h p) as [[c|]|] eqn:N; cbn [bind].
  - left. eexists. split; [reflexivity|]. split; [exists c; exact N|].
    assert (Lt : (p < length h)%nat) by (apply nth_error_Some; rewrite N; discriminate).
    split; [apply hclear_length|]. split; intros q H.
    + rewrite hclear_nth. destruct (Nat.eqb p q) eqn:E; [apply Nat.eqb_eq in E; exfalso; apply H; left; exact E|reflexivity].
    + destruct H as [<-|[]]. rewrite hclear_nth, Nat.eqb_refl. apply Nat.ltb_lt in Lt. rewrite Lt. reflexivity.
  - right. split; [reflexivity|]. intros (c & K). congruence.
  - right. split; [reflexivity|]. intros (c & K). congruence.
Qed.
Lemma dels_app : forall l m h h1 h2, dels l h h1 -> dels m h1 h2 -> dels (l ++ m) h h2.
Proof.
  intros l m h h1 h2 (A1 & A2 & A3) (B1 & B2 & B3). split; [congruence|]. split; intros p H.
  - rewrite B2, A2; [reflexivity| |]; intros K; apply H; apply in_app_iff; auto.
  - apply in_app_iff in H. destruct (in_dec Nat.eq_dec p m) as [I|I]; [exact (B3 p I)|]. rewrite B2 by exact I.
    apply A3. destruct H; tauto.
Qed.
Lemma dels_nil : forall h, dels [] h h.
Proof. intros h. split; [reflexivity|]. split; [reflexivity|]. intros p []. Qed.

(** Deleting a list: either all were alive and different, or a deleted object is used. *)
Lemma hdel_all_inv : forall l h,
  (exists h', hdel_all l h = Ok h' /\ (forall p, In p l -> alive h p) /\ NoDup l /\ dels l h h') \/
  (hdel_all l h = Dangling /\ ~ ((forall p, In p l -> alive h p) /\ NoDup l)).
Proof.
  induction l as [|p l IH]; intros h; cbn [hdel_all].
  - left. exists h. repeat split; try tauto; [intros q []|constructor|intros q []].
  - destruct (hdel_inv p h) as [(h1 & -> & A & D)|(-> & A)]; cbn [bind].
    + destruct D as (D1 & D2 & D3). destruct (IH h1) as [(h2 & -> & B & N & D')|(-> & B)].
      * assert (I : ~ In p l).
        { intros I. destruct (B p I) as (c & K). rewrite (D3 p (or_introl eq_refl)) in K. discriminate. }
        left. exists h2. split; [reflexivity|]. split.
        { intros q [<-|Hq]; [exact A|]. destruct (B q Hq) as (c & K). exists c.
          rewrite <- D2; [exact K|]. intros [<-|[]]. contradiction. }
        split; [constructor; assumption|]. apply (dels_app [p] l h h1 h2); [split; auto|exact D'].
      * right. split; [reflexivity|]. intros (Q1 & Q2). apply B. inversion Q2 as [|? ? I1 I2]; subst. split; [|exact I2].
        intros q Hq. destruct (Q1 q (or_intror Hq)) as (c & K). exists c. rewrite D2; [exact K|]. intros [<-|[]]. contradiction.
    + right. split; [reflexivity|]. intros (Q1 & _). apply A, Q1. left. reflexivity.
Qed.
Lemma hdel_all_app : forall l m h, hdel_all (l ++ m) h = do h <- hdel_all l h; hdel_all m h.
Proof.
  induction l as [|p l IH]; intros m h; cbn [app hdel_all]; [reflexivity|].
  destruct (hdel p h); cbn [bind]; auto.
Qed.
Lemma hdel_o_all : forall p h, hdel_o p h = hdel_all (opt p) h.
Proof. intros [p|] h; cbn; [|reflexivity]. destruct (hdel p h); reflexivity. Qed.
(** The destructor deletes what is owned, in that order. *)
Lemma destroy_all : forall u h, destroy u h = hdel_all (owned u) h.
Proof.
  intros u h. unfold destroy, owned.
  assert (E0 : (if peqb (u_nls u) (u_cts u) then Ok h else hdel_o (u_nls u) h) =
               hdel_all (if peqb (u_nls u) (u_cts u) then [] else opt (u_nls u)) h).
  { destruct (peqb _ _); [reflexivity|apply hdel_o_all]. }
  rewrite E0. rewrite hdel_all_app. destruct (hdel_all _ h) as [h1| | | | | | |]; try reflexivity. cbn [bind].
  rewrite hdel_all_app, hdel_o_all. destruct (hdel_all (opt (u_cts u)) h1) as [h2| | | | | | |]; try reflexivity. cbn [bind].
  rewrite hdel_all_app, hdel_o_all. destruct (hdel_all (opt (u_br u)) h2) as [h3| | | | | | |]; try reflexivity. cbn [bind].
  rewrite hdel_all_app. destruct (hdel_all (map snd (u_cg u)) h3) as [h4| | | | | | |]; try reflexivity. cbn [bind].
  rewrite hdel_all_app. destruct (hdel_all (u_heu u) h4) as [h5| | | | | | |]; try reflexivity. cbn [bind].
  rewrite hdel_all_app. destruct (hdel_all (u_ob u) h5) as [h6| | | | | | |]; try reflexivity. cbn [bind].
  apply hdel_o_all.
Qed.

(** *** Ownership *)
Record InvO (w : world) : Prop := mkIO {
  io_alive : forall i u p, at_ w i u -> In p (owned u) -> alive (w_h w) p;
  io_nodup : forall i u, at_ w i u -> NoDup (owned u);
  io_dis : forall i j u v p, i <> j -> at_ w i u -> at_ w j v -> In p (owned u) -> In p (owned v) -> False }.

(** A set-up [u] becomes [u'] while the world grows to [w1]. *)
Record becomes (w : world) (u : setup) (w1 : world) (u' : setup) : Prop := mkBe {
  be_grow : grow w w1; be_lists : lists_ok w1; be_fit : fit w1 u';
  be_ol : forall q, In q (lists_of (w_h w1) u') -> In q (lists_of (w_h w) u) \/ (length (w_ol w) <= q)%nat;
  be_nodup : NoDup (owned u) -> NoDup (owned u');
  be_own : forall p, In p (owned u') -> In p (owned u) \/ (length (w_h w) <= p)%nat;
  be_keep : forall p, alive (w_h w) p -> ~ In p (owned u) -> alive (w_h w1) p;
  be_alive : NoDup (owned u) -> (forall p, In p (owned u) -> alive (w_h w) p) -> forall p, In p (owned u') -> alive (w_h w1) p;
  be_link : (u_nls u' = u_nls u /\ u_opt u' = u_opt u) \/ its_o (w_h w1) (u_nls u') = u_opt u' }.

Lemma invO_put : forall w i u w1 u', InvL w -> InvO w -> at_ w i u -> becomes w u w1 u' -> InvO (su_put i u' w1).
Proof.
  intros w i u w1 u' [_ Fi _] [A N D] Hi B. unfold su_put. rewrite (proj1 (be_grow _ _ _ _ B)).
  assert (K : forall j v p, j <> i -> at_ w j v -> In p (owned u') -> In p (owned v) -> False).
  { intros j v p Nj Hj P1 P2. destruct (be_own _ _ _ _ B p P1) as [Q|Q]; [exact (D j i v u p Nj Hj Hi P2 Q)|].
    pose proof (ft_below _ _ (Fi _ _ Hj) p P2). lia. }
  constructor.
  - intros j v p Hj Hp. apply at_put in Hj. cbn [w_h]. destruct Hj as [(-> & E)|(Nj & Hj)].
    + injection E as <-. apply (be_alive _ _ _ _ B); [exact (N i u Hi)|intros q; exact (A i u q Hi)|exact Hp].
    + apply (be_keep _ _ _ _ B); [exact (A _ _ _ Hj Hp)|]. intros Q. exact (D j i v u p Nj Hj Hi Hp Q).
  - intros j v Hj. apply at_put in Hj. destruct Hj as [(-> & E)|(Nj & Hj)]; [|exact (N _ _ Hj)].
    injection E as <-. exact (be_nodup _ _ _ _ B (N _ _ Hi)).
  - intros j k v x p Njk Hj Hk P1 P2. apply at_put in Hj. apply at_put in Hk.
    destruct Hj as [(-> & E)|(Nj & Hj)]; destruct Hk as [(-> & E')|(Nk & Hk)].
    + contradiction.
    + injection E as <-. exact (K k x p Nk Hk P1 P2).
    + injection E' as <-. exact (K j v p Nj Hj P2 P1).
    + exact (D j k v x p Njk Hj Hk P1 P2).
Qed.
Lemma invO_push : forall w w1 u', InvL w -> InvO w -> ext w w1 -> NoDup (owned u') ->
  (forall p, In p (owned u') -> (length (w_h w) <= p < length (w_h w1))%nat) -> InvO (su_push u' w1).
Proof.
  intros w w1 u' [_ Fi _] [A N D] X Nd R. unfold su_push. rewrite (proj1 X).
  assert (K : forall j v p, at_ w j v -> In p (owned u') -> In p (owned v) -> False).
  { intros j v p Hj P1 P2. specialize (R p P1). pose proof (ft_below _ _ (Fi _ _ Hj) p P2). lia. }
  constructor.
  - intros j v p Hj Hp. apply at_push in Hj. cbn [w_h]. destruct Hj as [(-> & E)|(Nj & Hj)].
    + injection E as <-. exact (ext_new _ _ _ X (R p Hp)).
    + exact (ext_alive _ _ _ X (A _ _ _ Hj Hp)).
  - intros j v Hj. apply at_push in Hj. destruct Hj as [(-> & E)|(Nj & Hj)]; [|exact (N _ _ Hj)].
    injection E as <-. exact Nd.
  - intros j k v x p Njk Hj Hk P1 P2. apply at_push in Hj. apply at_push in Hk.
    destruct Hj as [(-> & E)|(Nj & Hj)]; destruct Hk as [(-> & E')|(Nk & Hk)].
    + contradiction.
    + injection E as <-. exact (K k x p Hk P1 P2).
    + injection E' as <-. exact (K j v p Hj P2 P1).
    + exact (D j k v x p Njk Hj Hk P1 P2).
Qed.

(** *** A part is added *)
Definition tail (u : setup) : list nat := opt (u_br u) ++ map snd (u_cg u) ++ u_heu u ++ u_ob u ++ opt (u_mh u).
Definition head (u : setup) : list nat := (if peqb (u_nls u) (u_cts u) then [] else opt (u_nls u)) ++ opt (u_cts u).
Lemma owned_split : forall u, owned u = head u ++ tail u.
Proof. intros u. unfold owned, head, tail. rewrite <- app_assoc. reflexivity. Qed.
Lemma nodup_ins : forall (l m : list nat) x, NoDup (l ++ m) -> ~ In x (l ++ m) -> NoDup (l ++ x :: m).
Proof. intros l m x N I. apply (proj2 (NoDup_Add (Add_app x l m))). auto. Qed.

(** The new object is put in place of at most one old one. *)
Lemma becomes_add : forall w u v w1 p u' l old m, fit w u -> lists_ok w -> w_new (plain v) w = (w1, p) ->
  owned u = l ++ old ++ m -> owned u' = l ++ p :: m -> (length old <= 1)%nat ->
  u_nls u' = u_nls u -> u_cts u' = u_cts u -> u_opt u' = u_opt u -> u_mh u' = u_mh u ->
  becomes w u w1 u'.
Proof.
  intros w u v w1 p u' l old m [F1 F2 F3 F4] L E O1 O2 Lo En Ec Eo Em.
  destruct (w_new_ok _ _ _ _ E) as (X & Pp & Ln & Ol & Np).
  assert (Sub : forall q, In q (owned u') -> q = p \/ In q (owned u)).
  { intros q Hq. rewrite O2 in Hq. rewrite O1. apply in_app_iff in Hq. destruct Hq as [Hq|[Hq|Hq]]; [|left; auto|].
    - right. apply in_app_iff. auto.
    - right. apply in_app_iff. right. apply in_app_iff. auto. }
  destruct (below_parts _ _ F2) as (B1 & B2 & _).
  constructor; rewrite ?En, ?Ec, ?Eo, ?Em; auto.
  - exact (ext_grow _ _ X).
  - apply (lists_ok_new _ _ _ _ E L). cbn. discriminate.
  - constructor; rewrite ?En, ?Ec, ?Eo, ?Em; auto.
    + intros q Hq. rewrite Eo in Hq. rewrite Ol. exact (F1 q Hq).
    + intros q Hq. destruct (Sub q Hq) as [-> | Hq']; [lia|]. specialize (F2 q Hq'). lia.
  - intros q Hq. left. apply in_lists in Hq. rewrite En, Ec, Eo in Hq. apply in_lists.
    destruct Hq as [Hq|[Hq|Hq]]; [auto| |].
    + right. left. exact (grow_its _ _ _ _ (ext_grow _ _ X) B1 Hq).
    + right. right. exact (grow_its _ _ _ _ (ext_grow _ _ X) B2 Hq).
  - intros N. rewrite O2. rewrite O1 in N. apply nodup_ins.
    + destruct old as [|x old]; [exact N|]. destruct old; [|cbn in Lo; lia]. exact (NoDup_remove_1 _ _ _ N).
    + intros K. assert (In p (owned u)) as I.
      { rewrite O1. apply in_app_iff in K. apply in_app_iff. destruct K; [auto|right; apply in_app_iff; auto]. }
      specialize (F2 p I). lia.
  - intros q Hq. destruct (Sub q Hq) as [-> | Hq']; [right; lia|auto].
  - intros q Aq _. exact (ext_alive _ _ _ X Aq).
  - intros _ A q Hq. destruct (Sub q Hq) as [-> | Hq']; [exists (plain v); exact Np|exact (ext_alive _ _ _ X (A q Hq'))].
Qed.

(** *** The problem is given *)
Lemma peqb_false : forall a b, a <> b -> peqb a b = false.
Proof. intros a b H. destruct (peqb a b) eqn:E; [apply peqb_ok in E; contradiction|reflexivity]. Qed.
Lemma head_new : forall u n c, u_nls u = Some n -> u_cts u = Some c -> NoDup (head u) /\ (forall p, In p (head u) -> p = n \/ p = c) /\ (n <> c -> head u = [n; c]).
Proof.
  intros u n c En Ec. unfold head. rewrite En, Ec. destruct (Nat.eq_dec n c) as [->|Ne].
  - rewrite (proj2 (peqb_ok _ _) eq_refl). cbn. split; [repeat constructor; auto|]. split; [intros p [<-|[]]; auto|intros K; destruct (K eq_refl)].
  - rewrite peqb_false by congruence. cbn. split; [|split].
    + constructor; [intros [K|[]]; congruence|repeat constructor; auto].
    + intros p [<-|[<-|[]]]; auto.
    + reflexivity.
Qed.
Lemma nodup_app_new : forall b (l m : list nat), NoDup l -> NoDup m -> (forall p, In p l -> (b <= p)%nat) -> (forall p, In p m -> (p < b)%nat) -> NoDup (l ++ m).
Proof.
  intros b l m Nl Nm Rl Rm. induction Nl as [|x l I Nl IH]; cbn; [exact Nm|]. constructor.
  - intros K. apply in_app_iff in K. destruct K as [K|K]; [auto|]. specialize (Rm x K). specialize (Rl x (or_introl eq_refl)). lia.
  - apply IH. intros p Hp. apply Rl. right. exact Hp.
Qed.
(** The parts that do not change when the problem is given. *)
Definition body (u : setup) : list nat := opt (u_br u) ++ map snd (u_cg u) ++ u_heu u ++ u_ob u.
Lemma tail_body : forall u, tail u = body u ++ opt (u_mh u).
Proof. intros u. unfold tail, body. rewrite <- !app_assoc. reflexivity. Qed.

Lemma nodup_r : forall (l m : list nat), NoDup (l ++ m) -> NoDup m.
Proof. induction l as [|x l IH]; intros m H; [exact H|]. inversion H; subst. auto. Qed.
Lemma nodup_l : forall (l m : list nat), NoDup (l ++ m) -> NoDup l.
Proof.
  induction l as [|x l IH]; intros m H; [constructor|]. inversion H; subst. constructor; [|eauto].
  intros K. apply H2. apply in_app_iff. auto.
Qed.
Lemma nodup_app_r : forall (l : list nat) x, NoDup (l ++ [x]) -> ~ In x l.
Proof. intros l x H. apply NoDup_remove_2 in H. rewrite app_nil_r in H. exact H. Qed.

Lemma becomes_init : forall w u w1 u' n c m, fit w u -> grow w w1 -> lists_ok w1 ->
  u_nls u' = Some n -> u_cts u' = Some c -> u_mh u' = Some m -> body u' = body u ->
  (length (w_h w) <= n < length (w_h w1))%nat -> (length (w_h w) <= c < length (w_h w1))%nat ->
  (m < length (w_h w1))%nat -> (u_mh u = Some m \/ (length (w_h w) <= m)%nat /\ m <> n /\ m <> c) ->
  (forall q, u_opt u' = Some q -> (u_opt u = Some q \/ length (w_ol w) <= q)%nat /\ (q < length (w_ol w1))%nat) -> u_opt u' <> None ->
  its_list (w_h w1) n = u_opt u' -> (c = n \/ its_list (w_h w1) c = None) ->
  (forall p, alive (w_h w) p -> u_mh u <> Some p \/ u_mh u = Some m -> alive (w_h w1) p) ->
  alive (w_h w1) n -> alive (w_h w1) c -> ((u_mh u = Some m -> alive (w_h w) m) -> alive (w_h w1) m) ->
  becomes w u w1 u'.
Proof.
  intros w u w1 u' n c m [F1 F2 F3 F4] G L En Ec Em Eb Rn Rc Rm Cm Co On Li Lc Kp An Ac Am.
  destruct (head_new u' n c En Ec) as (Hd1 & Hd2 & _).
  assert (Bb : forall p, In p (body u) -> (p < length (w_h w))%nat).
  { intros p Hp. apply F2. rewrite owned_split, tail_body. apply in_app_iff. right. apply in_app_iff. auto. }
  assert (Sub : forall p, In p (owned u') -> p = n \/ p = c \/ In p (body u) \/ p = m).
  { intros p Hp. rewrite owned_split, tail_body, Eb, Em in Hp. apply in_app_iff in Hp. destruct Hp as [Hp|Hp].
    - destruct (Hd2 p Hp); auto.
    - apply in_app_iff in Hp. cbn in Hp. intuition. }
  assert (Inb : forall p, In p (body u) -> In p (owned u)).
  { intros p Hp. rewrite owned_split, tail_body. apply in_app_iff. right. apply in_app_iff. auto. }
  assert (Lts : forall q, In q (lists_of (w_h w1) u') -> u_opt u' = Some q).
  { intros q Hq. apply in_lists in Hq. rewrite En, Ec in Hq. cbn in Hq. destruct Hq as [Hq|[Hq|Hq]]; [exact Hq|congruence|].
    destruct Lc as [-> | K]; congruence. }
  constructor; auto.
  - constructor.
    + intros q Hq. apply Co. exact Hq.
    + intros p Hp. destruct (Sub p Hp) as [-> |[-> |[Hb| ->]]]; try lia. specialize (Bb p Hb). destruct G as (_ & G & _). lia.
    + intros _. exact On.
    + rewrite En, Ec. split; discriminate.
  - intros q Hq. apply Lts in Hq. destruct (Co q Hq) as ([K|K] & _); [left; apply in_lists; auto|auto].
  - intros N. rewrite owned_split in N. pose proof (nodup_r _ _ N) as Nt. rewrite tail_body in Nt.
    rewrite owned_split, tail_body, Eb, Em.
    destruct Cm as [Cm|(Cm & C1 & C2)].
    + rewrite Cm in Nt. apply (nodup_app_new (length (w_h w))); auto.
      * intros p Hp. destruct (Hd2 p Hp) as [-> | ->]; lia.
      * intros p Hp. apply F2. rewrite owned_split, tail_body, Cm. apply in_app_iff. auto.
    + apply nodup_l in Nt. cbn. rewrite app_assoc. apply nodup_ins.
      * rewrite app_nil_r. apply (nodup_app_new (length (w_h w))); auto. intros p Hp. destruct (Hd2 p Hp) as [-> | ->]; lia.
      * rewrite app_nil_r. intros K. apply in_app_iff in K. destruct K as [K|K].
        -- destruct (Hd2 m K); congruence.
        -- specialize (Bb m K). lia.
  - intros p Hp. destruct (Sub p Hp) as [-> |[-> |[Hb| ->]]]; try (right; lia); [left; auto|].
    destruct Cm as [Cm|(Cm & _)]; [|auto]. left. rewrite owned_split, tail_body, Cm. apply in_app_iff. right. apply in_app_iff. right. left. reflexivity.
  - intros p Ap Np. apply Kp; [exact Ap|]. left. intros K. apply Np. rewrite owned_split, tail_body, K.
    apply in_app_iff. right. apply in_app_iff. right. left. reflexivity.
  - intros N A p Hp. destruct (Sub p Hp) as [-> |[-> |[Hb| ->]]]; auto.
    2:{ apply Am. intros K. apply A. rewrite owned_split, tail_body, K. apply in_app_iff. right. apply in_app_iff. right. left. reflexivity. }
    apply Kp; [apply A, Inb, Hb|].
    left. intros K. rewrite owned_split in N. pose proof (nodup_r _ _ N) as Nt. rewrite tail_body, K in Nt.
    exact (nodup_app_r _ _ Nt Hb).
  - right. rewrite En. exact Li.
Qed.

Lemma init_becomes : forall w u v same w1 u', fit w u -> lists_ok w -> initialize u v same w = Ok (w1, u') -> becomes w u w1 u'.
Proof.
  intros w u v same w1 u' F L E. unfold initialize in E.
  set (a := match u_opt u with Some q => (w, q) | None => (mkW (w_h w) (w_ol w ++ [[]]) (w_su w), length (w_ol w)) end) in E.
  assert (A : ext w (fst a) /\ lists_ok (fst a) /\ w_h (fst a) = w_h w /\ (snd a < length (w_ol (fst a)))%nat /\
              (u_opt u = Some (snd a) \/ snd a = length (w_ol w))).
  { unfold a. destruct (u_opt u) as [q|] eqn:Q; cbn.
    - split; [apply ext_refl|]. split; [exact L|]. split; [reflexivity|]. split; [exact (ft_opt _ _ F q Q)|auto].
    - split; [split; [reflexivity|]; split; [exists []; cbn; rewrite app_nil_r; auto|exists [[]]; reflexivity]|].
      split; [|split; [reflexivity|split; [rewrite app_length; cbn; lia|auto]]].
      intros p x z N H. cbn in *. rewrite app_length. pose proof (L _ _ _ N H). lia. }
  destruct a as [wa o]. cbn [fst snd] in *. destruct A as (Xa & La & Ha & Oa & Ca).
  destruct (w_new (mkCell v (Some o)) wa) as [wb n] eqn:En. destruct (w_new_ok _ _ _ _ En) as (Xb & Pn & Lnb & Olb & Nn).
  assert (Lb : lists_ok wb). { apply (lists_ok_new _ _ _ _ En La). cbn. intros r K. injection K as <-. exact Oa. }
  set (bm := match u_mh u with Some m => (wb, m) | None => w_new (plain 0) wb end) in E.
  assert (Bm : ext wb (fst bm) /\ lists_ok (fst bm) /\ w_ol (fst bm) = w_ol wb /\
    (u_mh u = Some (snd bm) \/ u_mh u = None /\ snd bm = length (w_h wb) /\ alive (w_h (fst bm)) (snd bm))).
  { unfold bm. destruct (u_mh u) as [m0|]; cbn [fst snd].
    - split; [apply ext_refl|]. auto.
    - destruct (w_new (plain 0) wb) as [wx m] eqn:Em. destruct (w_new_ok _ _ _ _ Em) as (Xx & Pm & Lm & Ol & Nm). cbn.
      split; [exact Xx|]. split; [apply (lists_ok_new _ _ _ _ Em Lb); cbn; discriminate|]. split; [exact Ol|].
      right. split; [reflexivity|]. split; [exact Pm|exists (plain 0); exact Nm]. }
  destruct bm as [wc m]. cbn [fst snd] in *. destruct Bm as (Xc & Lc & Olc & Cm).
  set (bc := if same then (wc, n) else w_new (plain 0) wc) in E.
  assert (Bc : ext wc (fst bc) /\ lists_ok (fst bc) /\ w_ol (fst bc) = w_ol wc /\
    (snd bc = n \/ snd bc = length (w_h wc) /\ its_list (w_h (fst bc)) (snd bc) = None /\ alive (w_h (fst bc)) (snd bc))).
  { unfold bc. destruct same; cbn [fst snd].
    - split; [apply ext_refl|]. auto.
    - destruct (w_new (plain 0) wc) as [wx c] eqn:Ec. destruct (w_new_ok _ _ _ _ Ec) as (Xx & Pm & Lm & Ol & Nm). cbn.
      split; [exact Xx|]. split; [apply (lists_ok_new _ _ _ _ Ec Lc); cbn; discriminate|]. split; [exact Ol|].
      right. split; [exact Pm|]. split; [unfold its_list; rewrite Nm; reflexivity|exists (plain 0); exact Nm]. }
  destruct bc as [wd c]. cbn [fst snd] in *. destruct Bc as (Xd & Ld & Old & Cc).
  injection E as <- <-.
  pose proof (ext_trans _ _ _ Xa (ext_trans _ _ _ Xb (ext_trans _ _ _ Xc Xd))) as X.
  pose proof (ext_len _ _ Xc) as G1. pose proof (ext_len _ _ Xd) as G2. pose proof (ext_len _ _ X) as G3.
  rewrite Ha in Pn.
  assert (An : alive (w_h wd) n). { exists (mkCell v (Some o)). apply (ext_cell _ _ _ _ Xd), (ext_cell _ _ _ _ Xc), Nn. }
  assert (Nd : nth_error (w_h wd) n = Some (Some (mkCell v (Some o)))) by (apply (ext_cell _ _ _ _ Xd), (ext_cell _ _ _ _ Xc), Nn).
  pose proof (alive_lt _ _ An) as Ltn.
  assert (Ac : alive (w_h wd) c). { destruct Cc as [-> |(_ & _ & Ac)]; assumption. }
  pose proof (alive_lt _ _ Ac) as Ltc.
  destruct (below_parts _ _ (ft_below _ _ F)) as (_ & _ & _ & Bmh & _).
  assert (Am : (u_mh u = Some m -> alive (w_h w) m) -> alive (w_h wd) m).
  { intros K. destruct Cm as [Cm|(_ & _ & Am)]; [exact (ext_alive _ _ _ X (K Cm))|exact (ext_alive _ _ _ Xd Am)]. }
  assert (Rm : (m < length (w_h wd))%nat).
  { destruct Cm as [Cm|(_ & _ & A)]; [specialize (Bmh m Cm); lia|]. apply alive_lt in A. lia. }
  apply (becomes_init w u wd _ n c m); cbn; auto.
  - exact (ext_grow _ _ X).
  - split; [lia|exact Ltn].
  - split; [|exact Ltc]. pose proof (ext_len _ _ (ext_trans _ _ _ Xa (ext_trans _ _ _ Xb Xc))).
    destruct Cc as [-> |(Cc & _)]; lia.
  - destruct Cm as [Cm|(_ & Cm & A)]; [auto|]. apply alive_lt in A. right.
    pose proof (ext_len _ _ (ext_trans _ _ _ Xa Xb)). rewrite Ha in Lnb.
    split; [lia|]. split; [lia|]. destruct Cc as [-> |(Cc & _)]; lia.
  - intros q K. injection K as <-. split; [|rewrite Old, Olc, Olb; lia].
    destruct Ca as [Ca|Ca]; [left; exact Ca|right; lia].
  - discriminate.
  - unfold its_list. rewrite Nd. reflexivity.
  - destruct Cc as [Cc|(_ & Cc & _)]; auto.
  - intros p Ap _. exact (ext_alive _ _ _ X Ap).
Qed.

Lemma init_nlp_becomes : forall w u v same w1 u', fit w u -> lists_ok w -> initialize_nlp u v same w = Ok (w1, u') -> becomes w u w1 u'.
Proof.
  intros w u v same w1 u' F L E. unfold initialize_nlp in E.
  destruct (new_nlp v w) as [wb n] eqn:En. pose proof En as En'. unfold new_nlp in En'. rewrite En' in E. clear En'.
  destruct (new_nlp_ok _ _ _ _ L En) as (Xb & Lb & Pn & Lnb & Its & Olb & _).
  rewrite hdel_o_all in E. destruct (hdel_all_inv (opt (u_mh u)) (w_h wb)) as [(h & Eh & Ah & _ & D)|(Eh & _)];
    rewrite Eh in E; cbn [bind] in E; [|discriminate].
  destruct D as (D1 & D2 & D3). set (wh := mkW h (w_ol wb) (w_su wb)) in *.
  assert (Lh : lists_ok wh).
  { intros p x z N H. cbn in *. destruct (in_dec Nat.eq_dec p (opt (u_mh u))) as [I|I]; [rewrite (D3 p I) in N; discriminate|].
    rewrite D2 in N by exact I. exact (Lb _ _ _ N H). }
  destruct (below_parts _ _ (ft_below _ _ F)) as (_ & _ & _ & Bmh & _).
  destruct (w_new (plain 0) wh) as [wc m] eqn:Em. destruct (w_new_ok _ _ _ _ Em) as (Xc & Pm & Lnc & Olc & Nm).
  assert (Lc : lists_ok wc) by (apply (lists_ok_new _ _ _ _ Em Lh); cbn; discriminate).
  set (bc := if same then (wc, n) else w_new (plain 0) wc) in E.
  assert (Bc : ext wc (fst bc) /\ lists_ok (fst bc) /\ w_ol (fst bc) = w_ol wc /\
    (snd bc = n \/ snd bc = length (w_h wc) /\ its_list (w_h (fst bc)) (snd bc) = None /\ alive (w_h (fst bc)) (snd bc))).
  { unfold bc. destruct same; cbn [fst snd].
    - split; [apply ext_refl|]. auto.
    - destruct (w_new (plain 0) wc) as [wx c] eqn:Ec. destruct (w_new_ok _ _ _ _ Ec) as (Xx & Pc & Lm & Ol & Nc). cbn.
      split; [exact Xx|]. split; [apply (lists_ok_new _ _ _ _ Ec Lc); cbn; discriminate|]. split; [exact Ol|].
      right. split; [exact Pc|]. split; [unfold its_list; rewrite Nc; reflexivity|exists (plain 0); exact Nc]. }
  destruct bc as [wd c]. cbn [fst snd] in *. destruct Bc as (Xd & Ld & Old & Cc).
  injection E as <- <-.
  pose proof (ext_trans _ _ _ Xc Xd) as X. pose proof (ext_len _ _ Xb) as G0. pose proof (ext_len _ _ X) as G1. pose proof (ext_len _ _ Xd) as G2.
  cbn [wh w_h w_ol] in *.
  assert (Nn : nth_error (w_h wd) n = nth_error (w_h wb) n).
  { assert (I : ~ In n (opt (u_mh u))) by (intros K; apply in_opt in K; specialize (Bmh n K); lia).
    destruct (nth_error (w_h wb) n) as [x|] eqn:N.
    - apply (ext_cell _ _ _ _ X). cbn. rewrite D2 by exact I. exact N.
    - apply nth_error_None in N. lia. }
  assert (An : alive (w_h wd) n).
  { unfold its_list in Its. unfold alive. rewrite Nn. destruct (nth_error (w_h wb) n) as [[x|]|]; try discriminate. eauto. }
  pose proof (alive_lt _ _ An) as Ltn.
  assert (Ac : alive (w_h wd) c). { destruct Cc as [-> |(_ & _ & Ac)]; assumption. }
  pose proof (alive_lt _ _ Ac) as Ltc.
  assert (Am : alive (w_h wd) m) by (apply (ext_alive _ _ _ Xd); exists (plain 0); exact Nm).
  pose proof (alive_lt _ _ Am) as Ltm.
  assert (Gr : grow w wd).
  { split; [rewrite (proj1 X); exact (proj1 Xb)|]. split; [lia|]. split; [rewrite Old, Olc; lia|].
    intros p Hp. destruct (in_dec Nat.eq_dec p (opt (u_mh u))) as [I|I].
    - right. apply (ext_cell _ _ _ _ X). exact (D3 p I).
    - left. destruct (nth_error (w_h w) p) as [x|] eqn:N.
      + apply (ext_cell _ _ _ _ X). cbn. rewrite D2 by exact I. exact (ext_cell _ _ _ _ Xb N).
      + apply nth_error_None in N. lia. }
  apply (becomes_init w u wd _ n c m); cbn; auto.
  - lia.
  - destruct Cc as [-> |(Cc & _)]; lia.
  - right. split; [lia|]. split; [lia|]. destruct Cc as [-> |(Cc & _)]; lia.
  - intros q K. injection K as <-. rewrite Old, Olc. split; [right; lia|]. lia.
  - discriminate.
  - unfold its_list in *. rewrite Nn. exact Its.
  - destruct Cc as [Cc|(_ & Cc & _)]; auto.
  - intros p Ap H. assert (I : ~ In p (opt (u_mh u))).
    { intros K. apply in_opt in K. destruct H as [H|H]; [congruence|]. rewrite H in K. injection K as <-. specialize (Bmh m H). lia. }
    destruct (ext_alive _ _ _ Xb Ap) as (x & N). exists x. apply (ext_cell _ _ _ _ X). cbn. rewrite D2 by exact I. exact N.
Qed.

(** *** A copy is added *)
Record pushed (w : world) (u : setup) (w1 : world) (u' : setup) : Prop := mkPu {
  pu_ext : ext w w1; pu_lists : lists_ok w1; pu_fit : fit w1 u';
  pu_ol : forall q, In q (lists_of (w_h w1) u') -> (length (w_ol w) <= q)%nat;
  pu_ob : u_ob u' = u_ob u;
  pu_own : u_ob u' = [] -> NoDup (owned u') /\ forall p, In p (owned u') -> (length (w_h w) <= p < length (w_h w1))%nat;
  pu_link : u_nls u' <> None -> its_o (w_h w1) (u_nls u') <> u_opt u' }.

Lemma owned_perm : forall u, u_heu u = [] -> u_ob u = [] ->
  Permutation (head u ++ opt (u_mh u) ++ map snd (u_cg u) ++ opt (u_br u)) (owned u).
Proof.
  intros u Eh Eo. rewrite owned_split. apply Permutation_app_head. unfold tail. rewrite Eh, Eo. cbn.
  rewrite app_assoc. rewrite (Permutation_app_comm (opt (u_mh u) ++ map snd (u_cg u))).
  apply Permutation_app_head. apply Permutation_app_comm.
Qed.
Lemma own_news : forall w w1 u', u_heu u' = [] -> u_ob u' = [] ->
  news w w1 (head u' ++ opt (u_mh u') ++ map snd (u_cg u') ++ opt (u_br u')) ->
  NoDup (owned u') /\ forall p, In p (owned u') -> (length (w_h w) <= p < length (w_h w1))%nat.
Proof.
  intros w w1 u' Eh Eo (N & R). pose proof (owned_perm u' Eh Eo) as P. split; [exact (Permutation_NoDup P N)|].
  intros p Hp. apply R. exact (Permutation_in _ (Permutation_sym P) Hp).
Qed.
(** Everything owned but the objects is new. *)
Lemma own_below : forall w w1 u u' l, below w u -> ext w w1 -> u_heu u' = [] -> u_ob u' = u_ob u ->
  (forall p, In p (head u') -> In p l) -> news w w1 (l ++ opt (u_mh u') ++ map snd (u_cg u') ++ opt (u_br u')) -> below w1 u'.
Proof.
  intros w w1 u u' l B X Eh Eo Hl (_ & R) p Hp. rewrite owned_split in Hp. unfold tail in Hp. rewrite Eh, Eo in Hp.
  rewrite !in_app_iff in Hp. pose proof (ext_len _ _ X).
  assert (K : In p l \/ In p (opt (u_mh u')) \/ In p (map snd (u_cg u')) \/ In p (opt (u_br u')) -> (p < length (w_h w1))%nat).
  { intros K. apply R. rewrite !in_app_iff. exact K. }
  destruct Hp as [Hp|[Hp|[Hp|[[]|[Hp|Hp]]]]]; try (apply K; auto; fail).
  assert (p < length (w_h w))%nat; [|lia]. apply B, owned_parts. tauto.
Qed.
Lemma head_opts : forall w w1 u', news w w1 (opt (u_nls u') ++ opt (u_cts u')) -> head u' = opt (u_nls u') ++ opt (u_cts u').
Proof.
  intros w w1 u' (N & _). unfold head. destruct (peqb (u_nls u') (u_cts u')) eqn:P; [|reflexivity].
  apply peqb_ok in P. rewrite P in *. destruct (u_cts u') as [x|]; [|reflexivity]. cbn in N.
  inversion N as [|? ? I _]; subst. exfalso. apply I. left. reflexivity.
Qed.
Lemma news_left : forall w w1 l m, news w w1 (l ++ m) -> news w w1 l.
Proof. intros w w1 l m (N & R). split; [exact (nodup_l _ _ N)|]. intros p Hp. apply R, in_app_iff. auto. Qed.

Lemma copy_pushed : forall w u w1 u', fit w u -> lists_ok w -> copy u w = Ok (w1, u') -> pushed w u w1 u'.
Proof.
  intros w u w1 u' [F1 F2 F3 F4] L E.
  destruct (copy_inv _ _ _ L F2 E) as (A1 & A2 & A3 & A4 & A5 & A6 & Z).
  destruct (copy_ok u w L (mkRd _ _ A1 A2 A5 A3 A4 A6) F1 Z) as (w2 & u2 & E2 & M & _ & _ & Zn & Zc & Fn & Fc & Lt & Zm & _).
  rewrite E in E2. injection E2 as <- <-. destruct M as [X Lw _ _ _ On Of Eh Eo _ _ Nw].
  assert (Hd : head u' = opt (u_nls u') ++ opt (u_cts u')) by (apply (head_opts w w1), (news_left _ _ _ _ Nw)).
  constructor; auto.
  - constructor.
    + intros q Hq. apply (Of q Hq).
    + apply (own_below w w1 u u' (opt (u_nls u') ++ opt (u_cts u'))); auto. rewrite Hd. auto.
    + intros H K. apply F3; [intros J; apply H, Zn, J|apply On; exact K].
    + rewrite <- Zn, <- Zc. exact F4.
  - intros q Hq. apply in_lists in Hq. destruct Hq as [Hq|[Hq|Hq]]; [apply (Of q Hq)|apply (Fn q Hq)|apply (Fc q Hq)].
  - intros Ob. apply own_news; auto. rewrite Hd. exact Nw.
  - intros H K. destruct (u_opt u') as [b|] eqn:Q.
    + specialize (Lt b b K eq_refl). lia.
    + apply F3; [intros J; apply H, Zn, J|]. apply On. reflexivity.
Qed.

Lemma copy_nlp_pushed : forall w u v wn p w1 u', fit w u -> lists_ok w -> new_nlp v w = (wn, p) ->
  copy_nlp u p wn = Ok (w1, u') -> pushed w u w1 u'.
Proof.
  intros w u v wn p w1 u' F L En E. pose proof F as [F1 F2 F3 F4].
  destruct (new_nlp_ok _ _ _ _ L En) as (Xn & Ln & Pp & Lp & Ip & Ol & _).
  pose proof (grow_fit _ _ _ (ext_grow _ _ Xn) F) as [G1 G2 _ _].
  destruct (copy_nlp_inv _ _ _ _ Ln G2 E) as (A3 & A4 & A5 & A6 & Z & Z1 & _).
  assert (Hn : u_nls u <> None) by (intros K; apply Z1; [exact K|apply F4; exact K]).
  assert (Ap : alive (w_h wn) p).
  { unfold its_list in Ip. unfold alive. destruct (nth_error (w_h wn) p) as [[x|]|]; try discriminate. eauto. }
  destruct (copy_nlp_ok u p wn Ln A5 A3 A4 A6 G1 Ap Z (F3 Hn) Hn) as (w2 & u2 & E2 & En' & C & Zm & On).
  rewrite E in E2. injection E2 as <- <-.
  pose proof (ext_len _ _ Xn) as Le.
  assert (Np : news w wn [p]) by (split; [repeat constructor; auto|]; intros z [<-|[]]; lia).
  destruct C as [(C1 & C2 & [X Lw _ _ _ Oo Of Eh Eo _ _ Nw])|(q & C1 & C2 & C3 & C4 & w2 & [X Lw _ _ _ Oo Of Eh Eo _ _ Nw] & X2 & L2 & Ol2 & Nq)].
  - assert (Hd : head u' = [p]) by (unfold head; rewrite En', C2, (proj2 (peqb_ok _ _) eq_refl); reflexivity).
    cbn [app] in Nw. pose proof (news_app w wn wn w1 [p] _ Xn (ext_refl _) X Np Nw) as Na.
    assert (Ipl : its_list (w_h w1) p = Some (length (w_ol w))) by (rewrite (ext_its _ _ _ X Ap); exact Ip).
    constructor; auto.
    + exact (ext_trans _ _ _ Xn X).
    + constructor; auto.
      * intros z Hz. apply (Of z Hz).
      * apply (own_below w w1 u u' [p]); auto; [exact (ext_trans _ _ _ Xn X)|]. rewrite Hd. auto.
      * rewrite En', C2. split; discriminate.
    + intros z Hz. apply in_lists in Hz. rewrite En', C2 in Hz. cbn in Hz. rewrite Ipl in Hz.
      destruct Hz as [Hz|[Hz|Hz]]; [specialize (Of z Hz); lia| |]; injection Hz as <-; lia.
    + intros Ob. apply own_news; auto. rewrite Hd. exact Na.
    + intros _. rewrite En'. cbn. rewrite Ipl. intros K. symmetry in K. specialize (Of _ K). lia.
  - pose proof (ext_trans _ _ _ X X2) as X'. pose proof (ext_len _ _ X) as Lx.
    assert (Qw : (length (w_h w2) <= q < length (w_h w1))%nat) by (apply Nq; left; reflexivity).
    assert (Hd : head u' = [p; q]).
    { unfold head. rewrite En', C2, peqb_false; [reflexivity|]. intros K. injection K as K. lia. }
    assert (Ipl : its_list (w_h w1) p = Some (length (w_ol w))) by (rewrite (ext_its _ _ _ X' Ap); exact Ip).
    cbn [app] in Nw.
    pose proof (news_app wn w2 w2 w1 _ _ X (ext_refl _) X2 Nw Nq) as N2.
    pose proof (news_app w wn wn w1 [p] _ Xn (ext_refl _) X' Np N2) as N3.
    assert (Na : news w w1 ([p; q] ++ opt (u_mh u') ++ map snd (u_cg u') ++ opt (u_br u'))).
    { destruct N3 as (D & R). assert (P : Permutation ([p] ++ (opt (u_mh u') ++ map snd (u_cg u') ++ opt (u_br u')) ++ [q])
        ([p; q] ++ opt (u_mh u') ++ map snd (u_cg u') ++ opt (u_br u'))).
      { cbn. constructor. rewrite Permutation_app_comm. reflexivity. }
      split; [exact (Permutation_NoDup P D)|]. intros z Hz. apply R. exact (Permutation_in _ (Permutation_sym P) Hz). }
    assert (Of' : lfresh wn w1 (u_opt u')) by (exact (lfresh_ext _ _ _ _ _ (ext_refl _) X2 Of)).
    constructor; auto.
    + exact (ext_trans _ _ _ Xn X').
    + constructor; auto.
      * intros z Hz. apply (Of' z Hz).
      * apply (own_below w w1 u u' [p; q]); auto; [exact (ext_trans _ _ _ Xn X')|]. rewrite Hd. auto.
      * rewrite En', C2. split; discriminate.
    + intros z Hz. apply in_lists in Hz. rewrite En', C2 in Hz. cbn in Hz. rewrite Ipl, C4 in Hz.
      destruct Hz as [Hz|[Hz|Hz]]; [specialize (Of' z Hz); lia|injection Hz as <-; lia|discriminate].
    + intros Ob. apply own_news; auto. rewrite Hd. exact Na.
    + intros _. rewrite En'. cbn. rewrite Ipl. intros K. symmetry in K. specialize (Of' _ K). lia.
Qed.

Lemma copy_pre_pushed : forall w u v wn p pref same w1 u', fit w u -> lists_ok w -> new_nlp v w = (wn, p) ->
  copy_pre u p pref same wn = Ok (w1, u') -> pushed w u w1 u'.
Proof.
  intros w u v wn p pref same w1 u' F L En E. pose proof F as [F1 F2 F3 F4].
  destruct (new_nlp_ok _ _ _ _ L En) as (Xn & Ln & Pp & Lp & Ip & Ol & _).
  pose proof (grow_fit _ _ _ (ext_grow _ _ Xn) F) as [G1 G2 _ _].
  destruct (copy_pre_inv _ _ _ _ _ _ Ln G2 E) as (A3 & A6 & Ho).
  assert (Ap : alive (w_h wn) p).
  { unfold its_list in Ip. unfold alive. destruct (nth_error (w_h wn) p) as [[x|]|]; try discriminate. eauto. }
  destruct (copy_pre_ok u p pref same wn Ln A3 A6 G1 Ap Ho) as (w2 & u2 & E2 & En' & X & Lw & (q & Ec & Cq) & Nw & Eg & Eh & Eb & Eo & _ & _ & _ & On & Of & Zm).
  rewrite E in E2. injection E2 as <- <-.
  pose proof (ext_len _ _ Xn) as Le.
  assert (Np : news w wn [p]) by (split; [repeat constructor; auto|]; intros z [<-|[]]; lia).
  assert (Ipl : its_list (w_h w1) p = Some (length (w_ol w))) by (rewrite (ext_its _ _ _ X Ap); exact Ip).
  pose proof (news_app w wn wn w1 [p] _ Xn (ext_refl _) X Np Nw) as Na.
  assert (Hd : head u' = [p] ++ (if same then [] else opt (u_cts u'))).
  { unfold head. rewrite En', Ec. destruct same; [subst q; rewrite (proj2 (peqb_ok _ _) eq_refl); reflexivity|].
    rewrite peqb_false; [reflexivity|]. intros K. injection K as K. lia. }
  assert (Nb : news w w1 (head u' ++ opt (u_mh u') ++ map snd (u_cg u') ++ opt (u_br u'))).
  { rewrite Hd, Eg, Eb. cbn [map opt]. rewrite app_nil_r, <- app_assoc. exact Na. }
  constructor; auto.
  - exact (ext_trans _ _ _ Xn X).
  - constructor; auto.
    + intros z Hz. apply (Of z Hz).
    + apply (own_below w w1 u u' (head u')); auto. exact (ext_trans _ _ _ Xn X).
    + rewrite En', Ec. split; discriminate.
  - intros z Hz. apply in_lists in Hz. rewrite En', Ec in Hz. cbn in Hz. rewrite Ipl in Hz.
    destruct Hz as [Hz|[Hz|Hz]]; [specialize (Of z Hz); lia|injection Hz as <-; lia|].
    destruct same; [subst q; rewrite Ipl in Hz; injection Hz as <-; lia|]. destruct Cq as (_ & Cq). congruence.
  - intros Ob. apply own_news; auto.
  - intros _. rewrite En'. cbn. rewrite Ipl. intros K. symmetry in K. specialize (Of _ K). lia.
Qed.

(** ** One call *)
Inductive shape (w : world) (op : wop) (w' : world) : Prop :=
| ShPut : forall i u w1 u', at_ w i u -> becomes w u w1 u' -> w' = su_put i u' w1 ->
    ((forall lk, linked1 lk op = setb i lk) /\ its_o (w_h w1) (u_nls u') = u_opt u' \/
     (forall lk, linked1 lk op = lk) /\ u_nls u' = u_nls u /\ u_opt u' = u_opt u) -> copied op = None -> shape w op w'
| ShNew : forall w1 u', ext w w1 -> lists_ok w1 -> w' = su_push u' w1 -> (forall lk, linked1 lk op = lk ++ [true]) ->
    u_nls u' = None -> u_cts u' = None -> u_opt u' = None -> u_ob u' = [] -> u_heu u' = [] -> u_cg u' = [] -> u_br u' = None ->
    news w w1 (opt (u_mh u')) -> copied op = None -> shape w op w'
| ShCopy : forall i u w1 u', at_ w i u -> pushed w u w1 u' -> w' = su_push u' w1 -> (forall lk, linked1 lk op = lk ++ [false]) ->
    copied op = Some i -> shape w op w'
| ShOpt : forall i u q l, op = WOpt i l -> at_ w i u -> u_opt u = Some q -> w' = mkW (w_h w) (put q l (w_ol w)) (w_su w) -> shape w op w'
| ShDel : forall i u h, op = WDel i -> at_ w i u -> destroy u (w_h w) = Ok h -> w' = mkW h (w_ol w) (put i None (w_su w)) -> shape w op w'.

Lemma su_at_inv : forall i w, (exists u, su_at i w = Ok u /\ at_ w i u) \/ su_at i w = OutOfBounds.
Proof. intros i w. unfold su_at, at_. destruct (nth_error (w_su w) i) as [[u|]|]; eauto. Qed.

Lemma at_grow : forall w w1 i u, grow w w1 -> at_ w i u -> at_ w1 i u.
Proof. intros w w1 i u (E & _) H. unfold at_ in *. rewrite E. exact H. Qed.

Ltac owned_eq := unfold owned; cbn [u_nls u_cts u_cg u_heu u_br u_ob u_mh]; rewrite ?map_app; cbn [map snd opt]; rewrite <- ?app_assoc; reflexivity.

Lemma step_shape : forall w op w', InvL w -> wstep w op = Ok w' -> shape w op w'.
Proof.
  intros w op w' [L Fi _] E. destruct op as [hd|i v same|i v same|i f v|i v|i v|i v|i l|i l|i|i v|i v pref same|i]; cbn [wstep] in E.
  - destruct hd.
    + destruct (w_new (plain 0) w) as [w1 m] eqn:En. injection E as <-. destruct (w_new_ok _ _ _ _ En) as (X & Pm & Lm & _ & _).
      eapply (ShNew _ _ _ w1); try reflexivity; [exact X|apply (lists_ok_new _ _ _ _ En L); cbn; discriminate|].
      split; [repeat constructor; auto|]. intros p [<-|[]]. lia.
    + injection E as <-. eapply (ShNew _ _ _ w); try reflexivity; [apply ext_refl|exact L|apply news_nil].
  - unfold upd_su in E. destruct (su_at_inv i w) as [(u & Eu & Hu)|Eu]; rewrite Eu in E; [|discriminate]. cbn [bind] in E.
    destruct (initialize u v same w) as [[w1 u']| | | | | | |] eqn:Ei; try discriminate. injection E as <-.
    pose proof (init_becomes _ _ _ _ _ _ (Fi _ _ Hu) L Ei) as B. apply (ShPut _ _ _ i u w1 u'); auto.
    left. split; [reflexivity|]. unfold initialize in Ei.
    destruct (match u_opt u with Some q => (w, q) | None => (mkW (w_h w) (w_ol w ++ [[]]) (w_su w), length (w_ol w)) end) as [wa o].
    destruct (w_new (mkCell v (Some o)) wa) as [wb n] eqn:En. destruct (w_new_ok _ _ _ _ En) as (_ & _ & _ & _ & Nn).
    set (bm := match u_mh u with Some m => (wb, m) | None => w_new (plain 0) wb end) in Ei.
    assert (Xm : ext wb (fst bm)).
    { unfold bm. destruct (u_mh u); [apply ext_refl|]. destruct (w_new (plain 0) wb) eqn:K. exact (proj1 (w_new_ok _ _ _ _ K)). }
    destruct bm as [wc m]. cbn in Xm. set (bc := if same then (wc, n) else w_new (plain 0) wc) in Ei.
    assert (Xc : ext wc (fst bc)).
    { unfold bc. destruct same; [apply ext_refl|]. destruct (w_new (plain 0) wc) eqn:K. exact (proj1 (w_new_ok _ _ _ _ K)). }
    destruct bc as [wd c]. cbn in Xc. injection Ei as <- <-. cbn. unfold its_list.
    rewrite (ext_cell _ _ _ _ Xc (ext_cell _ _ _ _ Xm Nn)). reflexivity.
  - unfold upd_su in E. destruct (su_at_inv i w) as [(u & Eu & Hu)|Eu]; rewrite Eu in E; [|discriminate]. cbn [bind] in E.
    destruct (initialize_nlp u v same w) as [[w1 u']| | | | | | |] eqn:Ei; try discriminate. injection E as <-.
    pose proof (init_nlp_becomes _ _ _ _ _ _ (Fi _ _ Hu) L Ei) as B. apply (ShPut _ _ _ i u w1 u'); auto.
    left. split; [reflexivity|]. destruct (be_link _ _ _ _ B) as [(K1 & K2)|K]; [|exact K]. exfalso.
    unfold initialize_nlp in Ei. cbn [w_new hnew w_h w_ol w_su] in Ei.
    destruct (hdel_o (u_mh u) _) as [h| | | | | | |]; try discriminate. cbn [bind] in Ei.
    destruct (if same then _ else _) as [wd c] in Ei. injection Ei as <- <-. cbn in K1.
    destruct (below_parts _ _ (ft_below _ _ (Fi _ _ Hu))) as (B1 & _). symmetry in K1. specialize (B1 _ K1). lia.
  - unfold upd_su in E. destruct (su_at_inv i w) as [(u & Eu & Hu)|Eu]; rewrite Eu in E; [|discriminate]. cbn [bind] in E.
    destruct (w_new (plain v) w) as [w1 p] eqn:En. cbn [bind] in E. injection E as <-.
    eapply (ShPut _ _ _ i u w1); [exact Hu| |reflexivity|right; auto|reflexivity].
    set (l := (if peqb (u_nls u) (u_cts u) then [] else opt (u_nls u)) ++ opt (u_cts u) ++ opt (u_br u) ++ map snd (u_cg u)).
    apply (becomes_add w u v w1 p _ l [] (u_heu u ++ u_ob u ++ opt (u_mh u)) (Fi _ _ Hu) L En); try reflexivity; try (unfold l; owned_eq). cbn; lia.
  - unfold upd_su in E. destruct (su_at_inv i w) as [(u & Eu & Hu)|Eu]; rewrite Eu in E; [|discriminate]. cbn [bind] in E.
    destruct (w_new (plain v) w) as [w1 p] eqn:En. cbn [bind] in E. injection E as <-.
    eapply (ShPut _ _ _ i u w1); [exact Hu| |reflexivity|right; auto|reflexivity].
    set (l := (if peqb (u_nls u) (u_cts u) then [] else opt (u_nls u)) ++ opt (u_cts u) ++ opt (u_br u) ++ map snd (u_cg u) ++ u_heu u).
    apply (becomes_add w u v w1 p _ l [] (u_ob u ++ opt (u_mh u)) (Fi _ _ Hu) L En); try reflexivity; try (unfold l; owned_eq). cbn; lia.
  - unfold upd_su in E. destruct (su_at_inv i w) as [(u & Eu & Hu)|Eu]; rewrite Eu in E; [|discriminate]. cbn [bind] in E.
    destruct (w_new (plain v) w) as [w1 p] eqn:En. cbn [bind] in E. injection E as <-.
    eapply (ShPut _ _ _ i u w1); [exact Hu| |reflexivity|right; auto|reflexivity].
    set (l := (if peqb (u_nls u) (u_cts u) then [] else opt (u_nls u)) ++ opt (u_cts u)).
    apply (becomes_add w u v w1 p _ l (opt (u_br u)) (map snd (u_cg u) ++ u_heu u ++ u_ob u ++ opt (u_mh u)) (Fi _ _ Hu) L En); try reflexivity; try (unfold l; owned_eq).
    destruct (u_br u); cbn; lia.
  - unfold upd_su in E. destruct (su_at_inv i w) as [(u & Eu & Hu)|Eu]; rewrite Eu in E; [|discriminate]. cbn [bind] in E.
    destruct (w_new (plain v) w) as [w1 p] eqn:En. cbn [bind] in E. injection E as <-.
    eapply (ShPut _ _ _ i u w1); [exact Hu| |reflexivity|right; auto|reflexivity].
    set (l := (if peqb (u_nls u) (u_cts u) then [] else opt (u_nls u)) ++ opt (u_cts u) ++ opt (u_br u) ++ map snd (u_cg u) ++ u_heu u ++ u_ob u).
    apply (becomes_add w u v w1 p _ l [] (opt (u_mh u)) (Fi _ _ Hu) L En); try reflexivity; try (unfold l; owned_eq). cbn; lia.
  - unfold upd_su in E. destruct (su_at_inv i w) as [(u & Eu & Hu)|Eu]; rewrite Eu in E; [|discriminate]. cbn [bind] in E. injection E as <-.
    eapply (ShPut _ _ _ i u w); [exact Hu| |reflexivity|right; auto|reflexivity].
    destruct (Fi _ _ Hu). constructor; cbn; auto; try (constructor; cbn; auto; fail).
  - destruct (su_at_inv i w) as [(u & Eu & Hu)|Eu]; rewrite Eu in E; [|discriminate]. cbn [bind] in E.
    destruct (u_opt u) as [q|] eqn:Q; [|discriminate]. injection E as <-. exact (ShOpt _ _ _ i u q l eq_refl Hu Q eq_refl).
  - unfold new_su in E. destruct (su_at_inv i w) as [(u & Eu & Hu)|Eu]; rewrite Eu in E; [|discriminate]. cbn [bind] in E.
    destruct (copy u w) as [[w1 u']| | | | | | |] eqn:C; try discriminate. injection E as <-.
    apply (ShCopy _ _ _ i u w1 u'); auto. exact (copy_pushed _ _ _ _ (Fi _ _ Hu) L C).
  - destruct (new_nlp v w) as [wn p] eqn:En. destruct (new_nlp_ok _ _ _ _ L En) as (Xn & _).
    unfold new_su in E. destruct (su_at_inv i wn) as [(u & Eu & Hu)|Eu]; rewrite Eu in E; [|discriminate]. cbn [bind] in E.
    destruct (copy_nlp u p wn) as [[w1 u']| | | | | | |] eqn:C; try discriminate. injection E as <-.
    assert (Hu' : at_ w i u) by (unfold at_ in *; rewrite <- (proj1 Xn); exact Hu).
    apply (ShCopy _ _ _ i u w1 u'); auto. exact (copy_nlp_pushed _ _ _ _ _ _ _ (Fi _ _ Hu') L En C).
  - destruct (new_nlp v w) as [wn p] eqn:En. destruct (new_nlp_ok _ _ _ _ L En) as (Xn & _).
    unfold new_su in E. destruct (su_at_inv i wn) as [(u & Eu & Hu)|Eu]; rewrite Eu in E; [|discriminate]. cbn [bind] in E.
    destruct (copy_pre u p pref same wn) as [[w1 u']| | | | | | |] eqn:C; try discriminate. injection E as <-.
    assert (Hu' : at_ w i u) by (unfold at_ in *; rewrite <- (proj1 Xn); exact Hu).
    apply (ShCopy _ _ _ i u w1 u'); auto. exact (copy_pre_pushed _ _ _ _ _ _ _ _ _ (Fi _ _ Hu') L En C).
  - destruct (su_at_inv i w) as [(u & Eu & Hu)|Eu]; rewrite Eu in E; [|discriminate]. cbn [bind] in E.
    destruct (destroy u (w_h w)) as [h| | | | | | |] eqn:D; try discriminate. injection E as <-.
    exact (ShDel _ _ _ i u h eq_refl Hu D eq_refl).
Qed.

Lemma destroy_dels : forall u h h', destroy u h = Ok h' -> (forall p, In p (owned u) -> alive h p) /\ NoDup (owned u) /\ dels (owned u) h h'.
Proof.
  intros u h h' E. rewrite destroy_all in E. destruct (hdel_all_inv (owned u) h) as [(h2 & E2 & A & N & D)|(E2 & _)]; rewrite E2 in E; [|discriminate].
  injection E as <-. auto.
Qed.

Lemma step_invL : forall w op w', InvL w -> shape w op w' -> InvL w'.
Proof.
  intros w op w' I H. pose proof I as [L Fi D].
  destruct H as [i u w1 u' Hu B -> _ _|w1 u' X L1 -> _ En Ec Eo Eb Eh Eg Er N _|i u w1 u' Hu P -> _ _|i u q l -> Hu Q ->|i u h -> Hu De ->].
  - destruct B. exact (invL_put _ _ _ _ _ I Hu be_grow0 be_lists0 be_fit0 be_ol0).
  - apply (invL_push w); auto.
    + exact (ext_grow _ _ X).
    + constructor.
      * intros q Q. congruence.
      * intros p Hp. apply owned_parts in Hp. rewrite En, Ec, Eb, Eh, Eg, Er in Hp. cbn in Hp.
        destruct Hp as [K|[K|[K|[[]|[[]|[[]|K]]]]]]; try discriminate. apply N. rewrite K. left. reflexivity.
      * congruence.
      * rewrite En, Ec. tauto.
    + intros q Q. apply in_lists in Q. rewrite En, Ec, Eo in Q. cbn in Q. destruct Q as [Q|[Q|Q]]; discriminate.
  - destruct P. apply (invL_push w); auto. exact (ext_grow _ _ pu_ext0).
  - constructor.
    + intros p c z N K. cbn in *. rewrite put_length. exact (L _ _ _ N K).
    + intros j v Hj. destruct (Fi j v Hj) as [F1 F2 F3 F4]. constructor; auto. intros z Hz. cbn. rewrite put_length. exact (F1 z Hz).
    + exact D.
  - destruct (destroy_dels _ _ _ De) as (A & Nd & D1 & D2 & D3).
    assert (G : forall v, below w v -> forall q, In q (lists_of h v) -> In q (lists_of (w_h w) v)).
    { intros v Bv q. apply (grow_lists w (mkW h (w_ol w) (w_su w)) v q); [|exact Bv]. split; [reflexivity|]. cbn. split; [lia|]. split; [lia|].
      intros p _. destruct (in_dec Nat.eq_dec p (owned u)); auto. }
    constructor.
    + intros p c z N K. cbn in *. destruct (in_dec Nat.eq_dec p (owned u)) as [I1|I1]; [rewrite (D3 p I1) in N; discriminate|].
      rewrite (D2 p I1) in N. exact (L _ _ _ N K).
    + intros j v Hj. apply at_put in Hj. destruct Hj as [(_ & K)|(_ & Hj)]; [discriminate|].
      destruct (Fi j v Hj) as [F1 F2 F3 F4]. constructor; auto. intros p Hp. cbn. rewrite D1. exact (F2 p Hp).
    + intros j k v x q Njk Hj Hk P1 P2. apply at_put in Hj. apply at_put in Hk.
      destruct Hj as [(_ & K)|(_ & Hj)]; [discriminate|]. destruct Hk as [(_ & K)|(_ & Hk)]; [discriminate|]. cbn in P1, P2.
      exact (D j k v x q Njk Hj Hk (G v (ft_below _ _ (Fi _ _ Hj)) q P1) (G x (ft_below _ _ (Fi _ _ Hk)) q P2)).
Qed.

Lemma invL_0 : InvL w0.
Proof.
  constructor.
  - intros p c q N. destruct p; discriminate.
  - intros i u H. destruct i; discriminate.
  - intros i j u v q _ H. destruct i; discriminate.
Qed.
Lemma run_invL : forall ops w w', InvL w -> wrun w ops = Ok w' -> InvL w'.
Proof.
  induction ops as [|o ops IH]; intros w w' I E; cbn [wrun] in E; [injection E as <-; exact I|].
  destruct (wstep w o) as [w1| | | | | | |] eqn:S1; try discriminate. cbn [bind] in E.
  exact (IH _ _ (step_invL _ _ _ I (step_shape _ _ _ I S1)) E).
Qed.

Lemma step_invO : forall w op w', InvL w -> InvO w -> shape w op w' ->
  (forall i u, copied op = Some i -> at_ w i u -> u_ob u = []) -> InvO w'.
Proof.
  intros w op w' I J H NC. pose proof I as [L Fi D]. pose proof J as [A N Dj].
  destruct H as [i u w1 u' Hu B -> _ _|w1 u' X L1 -> _ En Ec Eo Eb Eh Eg Er Nn _|i u w1 u' Hu P -> _ Co|i u q l -> Hu Q ->|i u h -> Hu De ->].
  - exact (invO_put _ _ _ _ _ I J Hu B).
  - assert (Ow : owned u' = opt (u_mh u')).
    { unfold owned. rewrite En, Ec, Eb, Eh, Eg, Er. reflexivity. }
    apply (invO_push w); auto; rewrite Ow; apply Nn.
  - destruct P. assert (Eo : u_ob u' = []) by (rewrite pu_ob0; exact (NC i u Co Hu)).
    destruct (pu_own0 Eo). apply (invO_push w); auto.
  - constructor; auto.
  - destruct (destroy_dels _ _ _ De) as (_ & _ & D1 & D2 & D3). constructor.
    + intros j v p Hj Hp. apply at_put in Hj. destruct Hj as [(_ & K)|(Nj & Hj)]; [discriminate|].
      destruct (A _ _ _ Hj Hp) as (c & Nc). exists c. cbn. rewrite D2; [exact Nc|].
      intros K. exact (Dj j i v u p Nj Hj Hu Hp K).
    + intros j v Hj. apply at_put in Hj. destruct Hj as [(_ & K)|(Nj & Hj)]; [discriminate|]. exact (N _ _ Hj).
    + intros j k v x q Njk Hj Hk P1 P2. apply at_put in Hj. apply at_put in Hk.
      destruct Hj as [(_ & K)|(_ & Hj)]; [discriminate|]. destruct Hk as [(_ & K)|(_ & Hk)]; [discriminate|].
      exact (Dj j k v x q Njk Hj Hk P1 P2).
Qed.
Lemma invO_0 : InvO w0.
Proof.
  constructor.
  - intros i u p H. destruct i; discriminate.
  - intros i u H. destruct i; discriminate.
  - intros i j u v q _ H. destruct i; discriminate.
Qed.

Lemma InvO_readable : forall w i u, InvO w -> at_ w i u -> readable w u.
Proof.
  intros w i u J H. assert (A : forall p, In p (owned u) -> alive (w_h w) p) by (intros p; exact (io_alive _ J i u p H)).
  constructor; [| | | | |]; intros q Hq; apply A, owned_parts; tauto.
Qed.

(** A copy is made, or the handler is given to a solver that is not there. *)
Lemma copy_cases : forall w i u, InvL w -> InvO w -> at_ w i u ->
  (u_mh u <> None /\ u_cts u = None /\ wstep w (WCopy i) = NullDeref) \/
  ((u_mh u = None \/ u_cts u <> None) /\ exists w', wstep w (WCopy i) = Ok w').
Proof.
  intros w i u I J H. pose proof (InvO_readable _ _ _ J H) as R. pose proof (il_lists _ I) as L. pose proof (il_fit _ I _ _ H) as F.
  cbn [wstep]. unfold new_su, su_at. unfold at_ in H. rewrite H. cbn [bind].
  destruct (u_mh u) as [m|] eqn:M; [destruct (u_cts u) as [c|] eqn:C|].
  - right. split; [right; discriminate|]. destruct (copy_ok u w L R (ft_opt _ _ F)) as (w1 & u' & E & _); [rewrite C; discriminate|].
    rewrite E. cbn. eauto.
  - left. split; [discriminate|]. split; [reflexivity|]. rewrite copy_null; auto. rewrite M. discriminate.
  - right. split; [auto|]. destruct (copy_ok u w L R (ft_opt _ _ F)) as (w1 & u' & E & _); [rewrite M; intros K; destruct (K eq_refl)|].
    rewrite E. cbn. eauto.
Qed.
Lemma readable_ext : forall w w1 u, ext w w1 -> readable w u -> readable w1 u.
Proof.
  intros w w1 u X [A B C D E F]. constructor; try (intros q Hq; eapply ext_alive; [exact X|eauto]).
Qed.
Lemma nlp_alive : forall v w wn p, lists_ok w -> new_nlp v w = (wn, p) -> alive (w_h wn) p.
Proof.
  intros v w wn p L E. destruct (new_nlp_ok _ _ _ _ L E) as (_ & _ & _ & _ & Ip & _).
  unfold its_list in Ip. unfold alive. destruct (nth_error (w_h wn) p) as [[x|]|]; try discriminate. eauto.
Qed.
Lemma copy_nlp_cases : forall w i u v, InvL w -> InvO w -> at_ w i u -> u_nls u <> None ->
  (u_mh u <> None /\ u_cts u <> u_nls u /\ wstep w (WCopyNlp i v) = NullDeref) \/
  ((u_mh u = None \/ u_cts u = u_nls u) /\ exists w', wstep w (WCopyNlp i v) = Ok w').
Proof.
  intros w i u v I J H Hn. pose proof (InvO_readable _ _ _ J H) as R. pose proof (il_lists _ I) as L. pose proof (il_fit _ I _ _ H) as F.
  cbn [wstep]. destruct (new_nlp v w) as [wn p] eqn:En. destruct (new_nlp_ok _ _ _ _ L En) as (Xn & Ln & _).
  pose proof (nlp_alive _ _ _ _ L En) as Ap. pose proof (readable_ext _ _ _ Xn R) as [An Ac Ab Am Ag Ao].
  pose proof (grow_fit _ _ _ (ext_grow _ _ Xn) F) as F'.
  unfold new_su, su_at. unfold at_ in H. rewrite (proj1 Xn), H. cbn [bind].
  assert (Ok1 : u_mh u = None \/ u_cts u = u_nls u -> exists w', (do ' (w0, u0) <- copy_nlp u p wn; Ok (su_push u0 w0)) = Ok w').
  { intros K. destruct (copy_nlp_ok u p wn Ln Ab Am Ag Ao (ft_opt _ _ F') Ap) as (w1 & u' & E & _); auto.
    - intros M. destruct K; [contradiction|assumption].
    - exact (ft_no _ _ F Hn).
    - rewrite E. cbn. eauto. }
  destruct (u_mh u) as [m|] eqn:M; [|right; auto].
  destruct (peqb (u_cts u) (u_nls u)) eqn:P; [apply peqb_ok in P; right; auto|].
  left. split; [discriminate|]. assert (Ne : u_cts u <> u_nls u) by (intros K; apply peqb_ok in K; congruence).
  split; [exact Ne|]. rewrite copy_nlp_null; auto; [exact (eq_ind_r (alive_o (w_h wn)) Am M)|rewrite M; discriminate].
Qed.

Lemma step_safe : forall w op, InvL w -> InvO w -> wstep w op <> Dangling.
Proof.
  intros w op I J. pose proof I as [L Fi D]. destruct op as [hd|i v same|i v same|i f v|i v|i v|i v|i l|i l|i|i v|i v pref same|i]; cbn [wstep].
  - destruct hd; discriminate.
  - unfold upd_su. destruct (su_at_inv i w) as [(u & -> & Hu)| ->]; [|discriminate]. cbn [bind]. unfold initialize.
    destruct (match u_opt u with Some q => _ | None => _ end). destruct (w_new _ _). destruct (match u_mh u with Some m => _ | None => _ end).
    destruct (if same then _ else _). discriminate.
  - unfold upd_su. destruct (su_at_inv i w) as [(u & -> & Hu)| ->]; [|discriminate]. cbn [bind]. unfold initialize_nlp.
    destruct (w_new (mkCell v _) _) as [wb n] eqn:En. destruct (new_nlp_ok v w wb n L En) as (Xn & _).
    rewrite hdel_o_all. destruct (hdel_all_inv (opt (u_mh u)) (w_h wb)) as [(h & -> & _)|(_ & K)].
    + cbn [bind]. destruct (w_new (plain 0) _). destruct (if same then _ else _). discriminate.
    + exfalso. apply K. split; [|destruct (u_mh u); repeat constructor; auto]. intros p Hp. apply (ext_alive _ _ _ Xn), (io_alive _ J i u p Hu).
      apply owned_parts. apply in_opt in Hp. tauto.
  - unfold upd_su. destruct (su_at_inv i w) as [(u & -> & Hu)| ->]; [|discriminate]. cbn [bind]. destruct (w_new _ _). discriminate.
  - unfold upd_su. destruct (su_at_inv i w) as [(u & -> & Hu)| ->]; [|discriminate]. cbn [bind]. destruct (w_new _ _). discriminate.
  - unfold upd_su. destruct (su_at_inv i w) as [(u & -> & Hu)| ->]; [|discriminate]. cbn [bind]. destruct (w_new _ _). discriminate.
  - unfold upd_su. destruct (su_at_inv i w) as [(u & -> & Hu)| ->]; [|discriminate]. cbn [bind]. destruct (w_new _ _). discriminate.
  - unfold upd_su. destruct (su_at_inv i w) as [(u & -> & Hu)| ->]; [|discriminate]. discriminate.
  - destruct (su_at_inv i w) as [(u & -> & Hu)| ->]; [|discriminate]. cbn [bind]. destruct (u_opt u); discriminate.
  - destruct (su_at_inv i w) as [(u & Eu & Hu)|Eu].
    + destruct (copy_cases w i u I J Hu) as [(_ & _ & K)|(_ & w' & K)]; cbn [wstep] in K; rewrite K; discriminate.
    + unfold new_su. rewrite Eu. discriminate.
  - destruct (new_nlp v w) as [wn p] eqn:En. destruct (new_nlp_ok _ _ _ _ L En) as (Xn & Ln & _).
    pose proof (nlp_alive _ _ _ _ L En) as Ap. unfold new_su. destruct (su_at_inv i wn) as [(u & -> & Hu)| ->]; [|discriminate].
    assert (Hu' : at_ w i u) by (unfold at_ in *; rewrite <- (proj1 Xn); exact Hu).
    destruct (u_nls u) as [n|] eqn:Un.
    + destruct (copy_nlp_cases w i u v I J Hu') as [(_ & _ & K)|(_ & w' & K)]; [rewrite Un; discriminate| |];
        cbn [wstep] in K; rewrite En in K; unfold new_su, su_at in K; unfold at_ in Hu; rewrite Hu in K; cbn [bind] in *; rewrite K; discriminate.
    + cbn [bind]. pose proof (proj2 (ft_nc _ _ (Fi _ _ Hu')) Un) as Uc.
      pose proof (readable_ext _ _ _ Xn (InvO_readable _ _ _ J Hu')) as [An Ac Ab Am Ag Ao].
      pose proof (grow_fit _ _ _ (ext_grow _ _ Xn) (Fi _ _ Hu')) as F'.
      unfold copy_nlp. rewrite Un, Uc. cbn [peqb].
      destruct (clone_mh_ok (u_mh u) (Some p) wn Ln Am) as (w3 & m & E3 & X3 & L3 & _); [intros q Hq; injection Hq as <-; exact Ap|discriminate|].
      rewrite E3. cbn [bind].
      destruct (clone_cg_ok (u_cg u) w3 L3) as (w4 & g & E4 & X4 & L4 & _); [intros z Hz; exact (ext_alive _ _ _ X3 (Ag z Hz))|].
      rewrite E4. cbn [bind]. pose proof (ext_trans _ _ _ X3 X4) as Y4.
      destruct (clone_o_ok (u_br u) w4 L4 (ext_alive_o _ _ _ Y4 Ab)) as (w5 & b & E5 & X5 & L5 & _). rewrite E5. cbn [bind].
      pose proof (ext_trans _ _ _ Y4 X5) as Y5.
      destruct (ol_copy_ok (u_opt u) w5) as (w6 & o & E6 & X6 & H6 & _).
      { intros q Hq. pose proof (ft_opt _ _ F' q Hq). pose proof (ext_oll _ _ Y5). lia. }
      rewrite E6. cbn [bind]. destruct (ol_copy_inv w5 w5 _ _ (ext_refl _) L5 E6) as (_ & L6).
      destruct (clone_drop_ok (u_ob u) w6 L6) as (w7 & E7 & _); [intros z Hz; exact (ext_alive _ _ _ (ext_trans _ _ _ Y5 X6) (Ao z Hz))|].
      rewrite E7. cbn. discriminate.
  - destruct (new_nlp v w) as [wn p] eqn:En. destruct (new_nlp_ok _ _ _ _ L En) as (Xn & Ln & _).
    pose proof (nlp_alive _ _ _ _ L En) as Ap. unfold new_su. destruct (su_at_inv i wn) as [(u & -> & Hu)| ->]; [|discriminate]. cbn [bind].
    assert (Hu' : at_ w i u) by (unfold at_ in *; rewrite <- (proj1 Xn); exact Hu).
    pose proof (readable_ext _ _ _ Xn (InvO_readable _ _ _ J Hu')) as [An Ac Ab Am Ag Ao].
    pose proof (grow_fit _ _ _ (ext_grow _ _ Xn) (Fi _ _ Hu')) as F'.
    destruct (u_opt u) as [q|] eqn:Q.
    + destruct (copy_pre_ok u p pref same wn Ln Am Ao (ft_opt _ _ F') Ap) as (w1 & u' & E & _); [rewrite Q; discriminate|]. rewrite E. discriminate.
    + unfold copy_pre. rewrite Q. cbn [ol_copy bind].
      destruct (clone_mh_ok (u_mh u) (Some p) wn Ln Am) as (w3 & m & E3 & _); [intros q Hq; injection Hq as <-; exact Ap|discriminate|].
      rewrite E3. discriminate.
  - destruct (su_at_inv i w) as [(u & -> & Hu)| ->]; [|discriminate]. cbn [bind]. rewrite destroy_all.
    destruct (hdel_all_inv (owned u) (w_h w)) as [(h & -> & _)|(_ & K)]; [discriminate|]. exfalso. apply K.
    split; [intros p; exact (io_alive _ J i u p Hu)|exact (io_nodup _ J i u Hu)].
Qed.

Lemma run_safe : forall ops w, InvL w -> InvO w -> no_objects_copied w ops -> wrun w ops <> Dangling.
Proof.
  induction ops as [|o ops IH]; intros w I J H; [discriminate|]. cbn [wrun]. destruct H as (H1 & H2).
  pose proof (step_safe w o I J) as S1. destruct (wstep w o) as [w1| | | | | | |] eqn:E; cbn [bind]; try discriminate; [|contradiction].
  pose proof (step_shape _ _ _ I E) as Sh. apply IH; [exact (step_invL _ _ _ I Sh)|exact (step_invO _ _ _ I J Sh H1)|exact (H2 w1 eq_refl)].
Qed.
Lemma run_invO : forall ops w w', InvL w -> InvO w -> no_objects_copied w ops -> wrun w ops = Ok w' -> InvO w'.
Proof.
  induction ops as [|o ops IH]; intros w w' I J H E; cbn [wrun] in E; [injection E as <-; exact J|]. destruct H as (H1 & H2).
  destruct (wstep w o) as [w1| | | | | | |] eqn:S1; try discriminate. cbn [bind] in E.
  pose proof (step_shape _ _ _ I S1) as Sh. exact (IH _ _ (step_invL _ _ _ I Sh) (step_invO _ _ _ I J Sh H1) (H2 w1 eq_refl) E).
Qed.

(** ** What follows *)
Lemma at_push_old : forall w u' w1 j v, w_su w1 = w_su w -> at_ w j v -> at_ (su_push u' w1) j v.
Proof. intros w u' w1 j v E H. unfold at_, su_push in *. cbn. rewrite E. apply nth_app1. exact H. Qed.
Lemma at_push_new : forall w u' w1, w_su w1 = w_su w -> at_ (su_push u' w1) (length (w_su w)) u'.
Proof. intros w u' w1 E. unfold at_, su_push. cbn. rewrite E, nth_error_app2, Nat.sub_diag by lia. reflexivity. Qed.
Lemma at_fun : forall w i u v, at_ w i u -> at_ w i v -> u = v.
Proof. intros w i u v A B. unfold at_ in *. congruence. Qed.

(** Two set-ups with an object in common: the second one deleted uses a deleted object. *)
Lemma shared_dangling : forall w i j u v p w2, i <> j -> at_ w i u -> at_ w j v -> In p (owned u) -> In p (owned v) ->
  wstep w (WDel i) = Ok w2 -> wstep w2 (WDel j) = Dangling.
Proof.
  intros w i j u v p w2 Nij Hi Hj Pu Pv E. cbn [wstep] in *. unfold su_at in *. unfold at_ in Hi, Hj. rewrite Hi in E. cbn [bind] in E.
  destruct (destroy u (w_h w)) as [h| | | | | | |] eqn:D; try discriminate. cbn [bind] in E. injection E as <-.
  destruct (destroy_dels _ _ _ D) as (_ & _ & _ & _ & D3). cbn [w_su w_h]. rewrite put_nth.
  assert (Nat.eqb i j = false) as -> by (apply Nat.eqb_neq; exact Nij). rewrite Hj. cbn [bind].
  rewrite destroy_all. destruct (hdel_all_inv (owned v) h) as [(h2 & _ & A & _)|(-> & _)]; [|reflexivity].
  exfalso. destruct (A p Pv) as (c & N). rewrite (D3 p Pu) in N. discriminate.
Qed.
Lemma copied_shares : forall ops w i u op w1, wrun w0 ops = Ok w -> at_ w i u -> copied op = Some i -> wstep w op = Ok w1 ->
  at_ w1 i u /\ (length (w_su w) <> i) /\ exists u', at_ w1 (length (w_su w)) u' /\ u_ob u' = u_ob u.
Proof.
  intros ops w i u op w1 R H C E. pose proof (run_invL _ _ _ invL_0 R) as I. pose proof (at_lt _ _ _ H) as Lt.
  destruct (step_shape _ _ _ I E) as [? ? ? ? ? ? ? ? K|? ? ? ? ? ? ? ? ? ? ? ? ? ? K|i' u2 w2 u' Hu P -> _ K|? ? ? ? -> |? ? ? ->]; try congruence; try discriminate.
  rewrite C in K. injection K as <-. rewrite (at_fun _ _ _ _ H Hu). pose proof (proj1 (pu_ext _ _ _ _ P)) as Es.
  split; [exact (at_push_old w u' w2 i u2 Es Hu)|]. split; [lia|]. exists u'. split; [exact (at_push_new w u' w2 Es)|exact (pu_ob _ _ _ _ P)].
Qed.

Lemma copy_same : forall ops w i u w', wrun w0 ops = Ok w -> at_ w i u -> wstep w (WCopy i) = Ok w' ->
  at_ w' i u /\ exists u', at_ w' (length (w_su w)) u' /\ same_parts w' u u' /\ u_heu u' = [] /\
    (u_cts u' = u_nls u' <-> u_nls u = None) /\ solver_list w' u' = solver_list w u.
Proof.
  intros ops w i u w' R H E. pose proof (run_invL _ _ _ invL_0 R) as I. pose proof (il_fit _ I _ _ H) as F. pose proof (il_lists _ I) as L.
  cbn [wstep] in E. unfold new_su, su_at in E. pose proof H as H0. unfold at_ in H0. rewrite H0 in E. cbn [bind] in E.
  destruct (copy u w) as [[w1 u']| | | | | | |] eqn:C; try discriminate. injection E as <-.
  destruct (copy_inv _ _ _ L (ft_below _ _ F) C) as (A1 & A2 & A3 & A4 & A5 & A6 & Z).
  destruct (copy_ok u w L (mkRd _ _ A1 A2 A5 A3 A4 A6) (ft_opt _ _ F) Z) as (w2 & u2 & E2 & M & O1 & O2 & Zn & Zc & _ & _ & _ & _ & Sl).
  rewrite C in E2. injection E2 as <- <-. destruct M as [X Lw Mg Mb Mo _ _ Eh Eo Ep Ef Nw].
  split; [exact (at_push_old w u' w1 i u (proj1 X) H)|]. exists u'. split; [exact (at_push_new w u' w1 (proj1 X))|].
  cbn [w_h su_push]. split; [|split; [exact Eh|split]].
  - unfold same_parts. cbn [w_h su_push].
    rewrite (ext_object_o _ _ _ X A1), (ext_object_o _ _ _ X A2), (ext_object_o _ _ _ X A5), Eo.
    split; [exact O1|]. split; [exact O2|]. split.
    { rewrite Mg. apply map_ext_in. intros [f z] Hz. cbn. f_equal. symmetry. apply (ext_object _ _ _ X), A4. exact (in_map snd _ _ Hz). }
    split; [exact Mb|]. split; [reflexivity|]. split; [exact Ep|]. split; [exact Ef|].
    change (list_of w1 (u_opt u') = list_of w1 (u_opt u)). rewrite Mo. symmetry. apply ext_list_of; [exact X|exact (ft_opt _ _ F)].
  - pose proof (head_opts w w1 u' (news_left _ _ _ _ Nw)) as Hd. split.
    + intros K. destruct (u_nls u') as [n|] eqn:N; [|apply Zn; reflexivity]. exfalso. apply news_left in Nw. rewrite K in Nw.
      destruct Nw as (Nd & _). cbn in Nd. inversion Nd as [|? ? Q _]; subst. apply Q. left. reflexivity.
    + intros K. pose proof (proj1 Zn K) as N. pose proof (proj1 Zc (proj2 (ft_nc _ _ F) K)) as N'. congruence.
  - unfold solver_list. cbn [w_h su_push].
    assert (Q : forall wx v, match u_nls v with Some n => match nth_error (w_h wx) n with Some (Some c) => list_of wx (e_opt c) | _ => None end | None => None end
      = list_of wx (its_o (w_h wx) (u_nls v))).
    { intros wx v. destruct (u_nls v) as [n|]; [|reflexivity]. cbn. unfold its_list. destruct (nth_error (w_h wx) n) as [[c|]|]; reflexivity. }
    rewrite (Q w u). pose proof (Q w1 u') as Q1. rewrite Sl in Q1. exact Q1.
Qed.

Lemma copy_nlp_same : forall ops w i u v w' u', wrun w0 ops = Ok w -> at_ w i u -> wstep w (WCopyNlp i v) = Ok w' ->
  at_ w' (length (w_su w)) u' -> (u_cts u' = u_nls u' <-> u_cts u = u_nls u).
Proof.
  intros ops w i u v w' u' R H E Hu'. pose proof (run_invL _ _ _ invL_0 R) as I. pose proof (il_fit _ I _ _ H) as F. pose proof (il_lists _ I) as L.
  cbn [wstep] in E. destruct (new_nlp v w) as [wn p] eqn:En. destruct (new_nlp_ok _ _ _ _ L En) as (Xn & Ln & Pp & Lp & _).
  unfold new_su, su_at in E. unfold at_ in H. rewrite (proj1 Xn), H in E. cbn [bind] in E.
  destruct (copy_nlp u p wn) as [[w1 u1]| | | | | | |] eqn:C; try discriminate. injection E as <-.
  pose proof (grow_fit _ _ _ (ext_grow _ _ Xn) F) as F'.
  destruct (copy_nlp_inv _ _ _ _ Ln (ft_below _ _ F') C) as (A3 & A4 & A5 & A6 & Z & Z1 & _).
  assert (Hn : u_nls u <> None) by (intros K; apply Z1; [exact K|apply (ft_nc _ _ F); exact K]).
  destruct (copy_nlp_ok u p wn Ln A5 A3 A4 A6 (ft_opt _ _ F') (nlp_alive _ _ _ _ L En) Z (ft_no _ _ F Hn) Hn) as (w2 & u2 & E2 & En' & D & _).
  rewrite C in E2. injection E2 as <- <-.
  assert (Xs : w_su w1 = w_su w).
  { destruct D as [(_ & _ & [X _ _ _ _ _ _ _ _ _ _ _])|(q & _ & _ & _ & _ & w2 & [X _ _ _ _ _ _ _ _ _ _ _] & X2 & _)].
    - rewrite (proj1 X). exact (proj1 Xn).
    - rewrite (proj1 X2), (proj1 X). exact (proj1 Xn). }
  pose proof (at_fun _ _ _ _ Hu' (at_push_new w u1 w1 Xs)) as ->. rewrite En'.
  destruct D as [(D1 & D2 & _)|(q & D1 & D2 & D3 & _)]; rewrite D2.
  - tauto.
  - split; [|contradiction]. intros K. injection K as K. lia.
Qed.

(** Whether the options of a set-up are those of its solver. *)
Definition LK (w : world) (lk : list bool) : Prop :=
  length lk = length (w_su w) /\
  forall i u n c, at_ w i u -> u_nls u = Some n -> nth_error (w_h w) n = Some (Some c) -> (nth i lk false = true <-> e_opt c = u_opt u).
Lemma setb_length : forall l i, length (setb i l) = length l.
Proof. induction l; intros [|i]; cbn; auto. Qed.
Lemma setb_nth : forall l i j, nth j (setb i l) false = if (Nat.eqb i j && Nat.ltb i (length l))%bool then true else nth j l false.
Proof.
  induction l as [|b l IH]; intros i j; [destruct i, j; cbn; rewrite ?andb_false_r; reflexivity|].
  destruct i, j; cbn; try reflexivity. rewrite IH. reflexivity.
Qed.
Lemma grow_cell : forall w w1 n c, grow w w1 -> (n < length (w_h w))%nat -> nth_error (w_h w1) n = Some (Some c) -> nth_error (w_h w) n = Some (Some c).
Proof. intros w w1 n c (_ & _ & _ & G) Lt N. destruct (G n Lt) as [K|K]; rewrite K in N; [exact N|discriminate]. Qed.

Lemma step_LK : forall w op w' lk, InvL w -> LK w lk -> shape w op w' -> LK w' (linked1 lk op).
Proof.
  intros w op w' lk I (Ln & K) H. pose proof (il_fit _ I) as Fi.
  assert (Bn : forall j v n, at_ w j v -> u_nls v = Some n -> (n < length (w_h w))%nat).
  { intros j v n Hj En. destruct (below_parts _ _ (ft_below _ _ (Fi _ _ Hj))) as (B & _). exact (B n En). }
  destruct H as [i u w1 u' Hu B -> Lk _|w1 u' X L1 -> Lk En Ec Eo Eb Eh Eg Er N _|i u w1 u' Hu P -> Lk _|i u q l -> Hu Q ->|i u h -> Hu De ->].
  - pose proof (be_grow _ _ _ _ B) as G. pose proof (at_lt _ _ _ Hu) as Lt. split.
    + cbn. rewrite put_length, (proj1 G). destruct Lk as [(-> & _)|(-> & _)]; [rewrite setb_length|]; exact Ln.
    + intros j v n c Hj En Nc. unfold su_put in Hj. rewrite (proj1 G) in Hj. apply at_put in Hj. cbn [w_h su_put] in Nc.
      destruct Hj as [(-> & Ev)|(Nj & Hj)].
      * injection Ev as <-. destruct Lk as [(-> & Li)|(-> & E1 & E2)].
        -- rewrite setb_nth, Nat.eqb_refl. rewrite <- Ln in Lt. apply Nat.ltb_lt in Lt. rewrite Lt. cbn.
           rewrite En in Li. cbn in Li. unfold its_list in Li. rewrite Nc in Li. tauto.
        -- rewrite E1 in En. rewrite E2. apply (K i u n c Hu En). exact (grow_cell _ _ _ _ G (Bn _ _ _ Hu En) Nc).
      * pose proof (grow_cell _ _ _ _ G (Bn _ _ _ Hj En) Nc) as Nc'. rewrite <- (K j v n c Hj En Nc').
        destruct Lk as [(-> & _)|(-> & _)]; [|reflexivity]. rewrite setb_nth.
        assert (Nat.eqb i j = false) as -> by (apply Nat.eqb_neq; congruence). reflexivity.
  - split.
    + cbn. rewrite Lk, !app_length, (proj1 X), Ln. reflexivity.
    + intros j v n c Hj Ev Nc. unfold su_push in Hj. rewrite (proj1 X) in Hj. apply at_push in Hj. cbn [w_h su_push] in Nc.
      destruct Hj as [(-> & E)|(Nj & Hj)]; [injection E as <-; congruence|].
      pose proof (at_lt _ _ _ Hj) as Lt. rewrite Lk, app_nth1 by lia. apply (K j v n c Hj Ev).
      exact (grow_cell _ _ _ _ (ext_grow _ _ X) (Bn _ _ _ Hj Ev) Nc).
  - pose proof (pu_ext _ _ _ _ P) as X. split.
    + cbn. rewrite Lk, !app_length, (proj1 X), Ln. reflexivity.
    + intros j v n c Hj Ev Nc. unfold su_push in Hj. rewrite (proj1 X) in Hj. apply at_push in Hj. cbn [w_h su_push] in Nc.
      destruct Hj as [(-> & E)|(Nj & Hj)].
      * injection E as <-. rewrite Lk, <- Ln, app_nth2, Nat.sub_diag by lia. cbn. split; [discriminate|]. intros J. exfalso.
        apply (pu_link _ _ _ _ P); [rewrite Ev; discriminate|]. rewrite Ev. cbn. unfold its_list. rewrite Nc. exact J.
      * pose proof (at_lt _ _ _ Hj) as Lt. rewrite Lk, app_nth1 by lia. apply (K j v n c Hj Ev).
        exact (grow_cell _ _ _ _ (ext_grow _ _ X) (Bn _ _ _ Hj Ev) Nc).
  - split; [exact Ln|]. exact K.
  - destruct (destroy_dels _ _ _ De) as (_ & _ & D1 & D2 & D3). split; [cbn; rewrite put_length; exact Ln|].
    intros j v n c Hj Ev Nc. apply at_put in Hj. destruct Hj as [(_ & E)|(Nj & Hj)]; [discriminate|].
    cbn in Nc. apply (K j v n c Hj Ev). destruct (in_dec Nat.eq_dec n (owned u)) as [J|J]; [rewrite (D3 n J) in Nc; discriminate|].
    rewrite <- (D2 n J). exact Nc.
Qed.
Lemma run_LK : forall ops w w' lk, InvL w -> LK w lk -> wrun w ops = Ok w' -> LK w' (fold_left linked1 ops lk).
Proof.
  induction ops as [|o ops IH]; intros w w' lk I K E; cbn [wrun] in E; [injection E as <-; exact K|].
  destruct (wstep w o) as [w1| | | | | | |] eqn:S1; try discriminate. cbn [bind] in E.
  pose proof (step_shape _ _ _ I S1) as Sh. exact (IH _ _ _ (step_invL _ _ _ I Sh) (step_LK _ _ _ _ I K Sh) E).
Qed.

Lemma put_other : forall q l (ol : list (list Z)) o, o <> Some q -> match o with Some r => nth_error (put q l ol) r | None => None end =
  match o with Some r => nth_error ol r | None => None end.
Proof.
  intros q l ol [r|] H; [|reflexivity]. rewrite put_nth. destruct (Nat.eqb q r) eqn:E; [|reflexivity].
  apply Nat.eqb_eq in E. subst. destruct (H eq_refl).
Qed.
Lemma opt_reach : forall ops w i u l w', wrun w0 ops = Ok w -> at_ w i u -> wstep w (WOpt i l) = Ok w' -> solver_list w u <> None ->
  list_of w' (u_opt u) = Some l /\ solver_list w' u = if linked ops i then Some l else solver_list w u.
Proof.
  intros ops w i u l w' R H E S. pose proof (run_invL _ _ _ invL_0 R) as I.
  destruct (run_LK ops w0 w [] invL_0) as (_ & K); [split; [reflexivity|]; intros j v n c Hj; destruct j; discriminate|exact R|].
  cbn [wstep] in E. unfold su_at in E. pose proof H as H0. unfold at_ in H0. rewrite H0 in E. cbn [bind] in E.
  destruct (u_opt u) as [q|] eqn:Q; [|discriminate]. injection E as <-.
  pose proof (ft_opt _ _ (il_fit _ I _ _ H) q Q) as Lt. apply Nat.ltb_lt in Lt.
  unfold solver_list in *. cbn [w_h]. destruct (u_nls u) as [n|] eqn:En; [|destruct (S eq_refl)].
  destruct (nth_error (w_h w) n) as [[c|]|] eqn:Nc; [|destruct (S eq_refl)|destruct (S eq_refl)].
  pose proof (K i u n c H En Nc) as L. unfold linked.
  split; [cbn; rewrite put_nth, Nat.eqb_refl, Lt; reflexivity|].
  destruct (nth i (fold_left linked1 ops []) false).
  - rewrite (proj1 L eq_refl), Q. cbn. rewrite put_nth, Nat.eqb_refl, Lt. reflexivity.
  - unfold list_of. cbn. apply put_other. rewrite <- Q. intros J. apply L in J. discriminate.
Qed.
Lemma opt_alone : C296_full.
Proof.
  intros ops w i j v l w' R Nij Hj E. pose proof (run_invL _ _ _ invL_0 R) as I.
  cbn [wstep] in E. destruct (su_at_inv i w) as [(u & Eu & Hu)|Eu]; rewrite Eu in E; [|discriminate]. cbn [bind] in E.
  destruct (u_opt u) as [q|] eqn:Q; [|discriminate]. injection E as <-.
  assert (Nq : forall r, In r (lists_of (w_h w) v) -> Some r <> Some q).
  { intros r Hr J. injection J as ->. apply (il_dis _ I i j u v q Nij Hu Hj); [|exact Hr]. apply in_lists. auto. }
  split; [exact Hj|]. split.
  - unfold list_of. cbn. apply put_other. destruct (u_opt v) as [r|] eqn:V; [|discriminate]. apply Nq, in_lists. auto.
  - unfold solver_list. cbn [w_h]. destruct (u_nls v) as [n|] eqn:En; [|reflexivity].
    destruct (nth_error (w_h w) n) as [[c|]|] eqn:Nc; try reflexivity. unfold list_of. cbn. apply put_other.
    destruct (e_opt c) as [r|] eqn:V; [|discriminate]. apply Nq, in_lists. right. left. rewrite En. cbn. unfold its_list. rewrite Nc. exact V.
Qed.
