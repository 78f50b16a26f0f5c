(** Lemmas for the texts about the options. *)
From Coq Require Import List ZArith QArith Bool Ascii String DecimalString DecimalZ DecimalPos Lia.
From Verif Require Import Base Otx_Model Otx_Spec.
Import ListNotations.
Local Open Scope list_scope.

Lemma teqb_eq : forall a b, teqb a b = true <-> a = b.
Proof.
  induction a as [|x a IH]; intros [|y b]; simpl; split; intro H; try discriminate; auto.
  - apply andb_true_iff in H as [A B]. apply Ascii.eqb_eq in A. apply IH in B. congruence.
  - injection H as -> ->. apply andb_true_iff; split; [apply Ascii.eqb_refl | apply IH; reflexivity].
Qed.

(** ** Words *)
Definition nb (s : text) := forallb (fun c => negb (blank c)) s = true.

Lemma words_word : forall s w c r, nb s -> blank c = true -> words (Word w) (s ++ c :: r) = (rev w ++ s) :: words Between r.
Proof.
  induction s as [|x s IH]; intros w c r H B; simpl.
  - rewrite B, app_nil_r. reflexivity.
  - unfold nb in H; simpl in H. apply andb_true_iff in H as [H1 H2].
    destruct (blank x); [discriminate|]. rewrite IH; auto. simpl. rewrite <- app_assoc. reflexivity.
Qed.

Lemma words_spaces : forall k r, words Between (repeat spc k ++ r) = words Between r.
Proof. induction k; intro r; simpl; auto. Qed.

Lemma words_start : forall s c r, a_word s -> blank c = true -> words Between (s ++ c :: r) = s :: words Between r.
Proof.
  intros [|x s] c r (N & F & H) B; [congruence|].
  simpl in F. apply andb_true_iff in F as [F1 F2]. simpl in H. simpl.
  destruct (blank x); [discriminate|].
  destruct (Ascii.eqb x "#") eqn:E; [apply Ascii.eqb_eq in E; congruence|].
  rewrite words_word by auto. reflexivity.
Qed.

Lemma words_padded : forall w s c r, a_word s -> blank c = true -> words Between (padded w s ++ c :: r) = s :: words Between r.
Proof.
  intros w s c r A B. unfold padded. rewrite <- app_assoc.
  destruct (w - List.length s)%nat as [|k]; simpl.
  - apply words_start; auto.
  - rewrite words_start by auto. rewrite words_spaces. simpl. rewrite B. reflexivity.
Qed.

Lemma words_comment : forall s r, one_line s -> words Comment (s ++ nl :: r) = words Between r.
Proof.
  induction s as [|c s IH]; intros r H.
  - reflexivity.
  - cbn [app words]. destruct (Ascii.eqb c (ascii_of_nat 10)) eqn:E.
    + apply Ascii.eqb_eq in E. exfalso. apply H. left. exact E.
    + apply IH. intro I. apply H. right. exact I.
Qed.

Lemma one_line_app : forall a b, one_line a -> one_line b -> one_line (a ++ b).
Proof. intros a b A B I. apply in_app_or in I as [I | I]; auto. Qed.

Lemma word_prefix : forall n, a_word n -> a_word (lit "bonmin." ++ n).
Proof. intros n (A & B & C). split; [discriminate | split; [exact B | discriminate]]. Qed.

Lemma words_line : forall pr o r, a_word (o_name o) -> one_line (o_desc o) -> a_word (makeNumber pr (defaultAsString pr o)) ->
  words Between (opt_line pr o ++ r) = (lit "bonmin." ++ o_name o) :: makeNumber pr (defaultAsString pr o) :: words Between r.
Proof.
  intros pr o r N D V. unfold opt_line.
  set (v := makeNumber pr (defaultAsString pr o)) in *. clearbody v.
  assert (E : (lit "bonmin." ++ padded 37 (o_name o) ++ [spc] ++ padded 10 v ++ [tab; "#"%char] ++ o_desc o ++ [nl]) ++ r =
              (lit "bonmin." ++ o_name o) ++ (repeat spc (37 - List.length (o_name o)) ++ spc :: (padded 10 v ++ tab :: "#"%char :: (o_desc o ++ nl :: r)))).
  { unfold padded at 1. rewrite <- !app_assoc. cbn [app]. reflexivity. }
  rewrite E. clear E.
  assert (W : forall k x, words Between ((lit "bonmin." ++ o_name o) ++ (repeat spc k ++ spc :: x)) = (lit "bonmin." ++ o_name o) :: words Between x).
  { intros [|k] x.
    - cbn [repeat app]. rewrite words_start; [reflexivity | apply word_prefix; auto | reflexivity].
    - cbn [repeat]. rewrite <- app_comm_cons. rewrite words_start; [| apply word_prefix; auto | reflexivity].
      rewrite words_spaces. reflexivity. }
  rewrite W. f_equal. rewrite words_padded by auto. f_equal.
  cbn [words]. change (blank "#"%char) with false. cbv iota. change (Ascii.eqb "#" "#") with true. cbv iota.
  apply words_comment. exact D.
Qed.

Lemma header_text : exists h, lit "# registering category: " = "#"%char :: h /\ one_line h.
Proof.
  eexists. split; [reflexivity|].
  intro I.
  assert (X : existsb (Ascii.eqb (ascii_of_nat 10)) (lit " registering category: ") = true).
  { apply existsb_exists. exists (ascii_of_nat 10). split; [exact I | reflexivity]. }
  vm_compute in X. discriminate X.
Qed.

Lemma words_header : forall c x, one_line c ->
  words Between (([nl] ++ lit "# registering category: " ++ c ++ [nl; nl]) ++ x) = words Between x.
Proof.
  intros c x H. destruct header_text as (h & -> & O).
  assert (R : ([nl] ++ ("#"%char :: h) ++ c ++ [nl; nl]) ++ x = nl :: "#"%char :: ((h ++ c) ++ nl :: nl :: x)).
  { cbn [app]. rewrite <- !app_assoc. reflexivity. }
  rewrite R.
  change (words Between (nl :: "#"%char :: ((h ++ c) ++ nl :: nl :: x))) with (words Comment ((h ++ c) ++ nl :: nl :: x)).
  rewrite words_comment by (apply one_line_app; auto). reflexivity.
Qed.

Lemma words_lines : forall pr os cat,
  Forall (fun o => a_word (o_name o) /\ one_line (o_cat o) /\ one_line (o_desc o) /\ a_word (makeNumber pr (defaultAsString pr o))) os ->
  words Between (opt_lines pr cat os) = flat_map (fun o => [lit "bonmin." ++ o_name o; makeNumber pr (defaultAsString pr o)]) os.
Proof.
  induction os as [|o os IH]; intros cat F; [reflexivity|].
  pose proof (Forall_inv F) as (A & B & C & D). apply Forall_inv_tail in F.
  cbn [opt_lines flat_map]. destruct (teqb (o_cat o) cat).
  - cbn [app]. rewrite words_line by auto. rewrite IH by auto. reflexivity.
  - assert (E : forall x, words Between (([nl] ++ lit "# registering category: " ++ o_cat o ++ [nl; nl]) ++ x) = words Between x).
    { intro x. apply words_header; auto. }
    rewrite E. rewrite words_line by auto. rewrite IH by auto. reflexivity.
Qed.

Lemma pairs_flat : forall (os : list opt) f g, pairs (flat_map (fun o => [f o; g o]) os) = Some (map (fun o => (f o, g o)) os).
Proof. induction os as [|o os IH]; intros f g; simpl; auto. rewrite IH. reflexivity. Qed.

(** ** Numbers *)
Definition num_chars : list ascii := list_ascii_of_string "0123456789+-.e".

Lemma num_word : forall s, s <> [] -> (forall c, In c s -> In c num_chars) -> a_word s.
Proof.
  intros s N H. split; [exact N|]. split.
  - apply forallb_forall. intros c I. specialize (H c I). vm_compute in H.
    repeat (destruct H as [<- | H]; [reflexivity|]). destruct H.
  - destruct s as [|c s]; [congruence|]. simpl. specialize (H c (or_introl eq_refl)). intro E. subst c.
    vm_compute in H. repeat (destruct H as [H | H]; [discriminate H|]). exact H.
Qed.

Lemma num_not_standing : forall s, (forall c, In c s -> In c num_chars) -> ~ standing_for s.
Proof.
  intros s H I. simpl in I.
  assert (E : In "M"%char s).
  { repeat (destruct I as [<- | I]; [solve [vm_compute; tauto]|]). destruct I. }
  specialize (H _ E). vm_compute in H. repeat (destruct H as [H | H]; [discriminate H|]). exact H.
Qed.

Lemma makeNumber_other : forall pr s, ~ standing_for s -> makeNumber pr s = s.
Proof.
  intros pr s H. unfold makeNumber.
  destruct (teqb s (lit "DBL_MAX")) eqn:A; [exfalso; apply H; apply teqb_eq in A; subst; left; reflexivity|].
  destruct (teqb s (lit "-DBL_MAX")) eqn:B; [exfalso; apply H; apply teqb_eq in B; subst; right; left; reflexivity|].
  destruct (teqb s (lit "INT_MAX")) eqn:C; [exfalso; apply H; apply teqb_eq in C; subst; right; right; left; reflexivity|].
  destruct (teqb s (lit "-INT_MAX")) eqn:D; [exfalso; apply H; apply teqb_eq in D; subst; right; right; right; left; reflexivity|].
  reflexivity.
Qed.

Lemma uint_chars : forall d c, In c (lit (NilEmpty.string_of_uint d)) -> In c num_chars.
Proof.
  unfold lit. induction d; cbn [NilEmpty.string_of_uint list_ascii_of_string]; intros c I;
    [destruct I | destruct I as [<- | I]; [| apply IHd; exact I] ..];
    repeat (first [left; reflexivity | right]).
Qed.
Lemma zuint_chars : forall d c, In c (lit (NilZero.string_of_uint d)) -> In c num_chars.
Proof.
  intros d c. unfold NilZero.string_of_uint. destruct d; try apply uint_chars. simpl. intros [<- | []]. left; reflexivity.
Qed.
Lemma zuint_nonempty : forall d, lit (NilZero.string_of_uint d) <> [].
Proof. intros [] H; simpl in H; discriminate H. Qed.
Lemma pr_int_chars : forall z, pr_int z <> [] /\ forall c, In c (pr_int z) -> In c num_chars.
Proof.
  intro z. unfold pr_int, NilZero.string_of_int. destruct (Z.to_int z).
  - split; [apply zuint_nonempty | apply zuint_chars].
  - simpl. split; [discriminate|]. intros c [<- | I]; [repeat (first [left; reflexivity | right]) | eapply zuint_chars; eauto].
Qed.

Lemma int_of_pr : forall z, int_of (pr_int z) = Some z.
Proof.
  intro z. unfold int_of, pr_int, lit. rewrite string_of_list_ascii_of_string.
  rewrite NilZero.isi.
  - f_equal. apply DecimalZ.of_to.
  - destruct z; simpl; try discriminate. intro H. injection H as H. exact (DecimalPos.Unsigned.to_uint_nonnil p H).
  - destruct z; simpl; try discriminate. intro H. injection H as H. exact (DecimalPos.Unsigned.to_uint_nonnil p H).
Qed.

(** The text of the value. *)
Lemma value_text : forall pr o, prints_numbers pr -> writable o ->
  a_word (makeNumber pr (defaultAsString pr o)) /\ is_default pr o (makeNumber pr (defaultAsString pr o)).
Proof.
  intros pr o P (_ & _ & _ & W). unfold defaultAsString, is_default. destruct (o_def o) as [q | z | s |]; [| | |destruct W].
  - fold dbl_max in W. unfold makeString_num.
    destruct (Qle_bool dbl_max q) eqn:E.
    + change (makeNumber pr (lit "DBL_MAX")) with (pr dbl_max). destruct (P dbl_max) as [A B].
      split; [apply num_word; auto|]. exists dbl_max. split; auto. apply Qle_bool_iff in E. apply Qle_antisym; tauto.
    + destruct (Qle_bool q (- dbl_max)) eqn:E2.
      * change (makeNumber pr (lit "-DBL_MAX")) with (pr (- dbl_max)). destruct (P (- dbl_max)) as [A B].
        split; [apply num_word; auto|]. exists (- dbl_max). split; auto. apply Qle_bool_iff in E2. apply Qle_antisym; tauto.
      * destruct (P q) as [A B]. rewrite makeNumber_other by (apply num_not_standing; auto).
        split; [apply num_word; auto|]. exists q. split; reflexivity.
  - unfold makeString_int.
    destruct (Z.leb_spec int_max z) as [E | E].
    + change (makeNumber pr (lit "INT_MAX")) with (pr_int int_max). destruct (pr_int_chars int_max) as [A B].
      split; [apply num_word; auto|]. rewrite int_of_pr. f_equal. unfold int_max in *. lia.
    + destruct (Z.leb_spec z (- int_max)) as [E2 | E2].
      * change (makeNumber pr (lit "-INT_MAX")) with (pr_int (- int_max)). destruct (pr_int_chars (- int_max)) as [A B].
        split; [apply num_word; auto|]. rewrite int_of_pr. f_equal. unfold int_max in *. lia.
      * destruct (pr_int_chars z) as [A B]. rewrite makeNumber_other by (apply num_not_standing; auto).
        split; [apply num_word; auto | apply int_of_pr].
  - destruct W as [A B]. rewrite makeNumber_other by auto. auto.
Qed.

(** ** HTML *)
Lemma run_cell : forall st t l, run_html st (cell t ++ l) = run_html st l.
Proof. reflexivity. Qed.
Lemma run_row : forall a b c d st o l, run_html st (html_row a b c d o ++ l) = run_html st l.
Proof. reflexivity. Qed.
Lemma run_cat : forall st t l, run_html st (html_cat t ++ l) = run_html st l.
Proof. reflexivity. Qed.
Lemma run_rows : forall a b c d os cat st l, run_html st (html_rows a b c d cat os ++ l) = run_html st l.
Proof.
  induction os as [|o os IH]; intros cat st l; [reflexivity|].
  cbn [html_rows]. rewrite <- !app_assoc. destruct (teqb (o_cat o) cat).
  - cbn [app]. rewrite run_row. apply IH.
  - rewrite run_cat, run_row. apply IH.
Qed.

Lemma links_app : forall a b, links (a ++ b) = links a ++ links b.
Proof. intros. unfold links. apply flat_map_app. Qed.

Lemma links_rows : forall a b c d os cat, links (html_rows a b c d cat os) = map (fun x => "#"%char :: x) (anchors cat os).
Proof.
  induction os as [|o os IH]; intro cat; [reflexivity|].
  cbn [html_rows anchors]. rewrite !links_app, map_app. rewrite IH.
  destruct (teqb (o_cat o) cat); reflexivity.
Qed.

(** ** Anchors *)
Lemma anchors_in : forall os cat x, In x (anchors cat os) -> exists o, In o os /\ x = lit "sec:" ++ makeSpaceLess (o_cat o).
Proof.
  induction os as [|o os IH]; intros cat x I; [destruct I|].
  cbn [anchors] in I. apply in_app_or in I as [I | I].
  - destruct (teqb (o_cat o) cat); [destruct I|]. destruct I as [<- | []]. exists o; split; [left; auto | reflexivity].
  - destruct (IH _ _ I) as (p & P & ->). exists p; split; [right; auto | reflexivity].
Qed.

(** In a grouped list a category left behind does not come back. *)
Lemma anchors_in2 : forall os cat x, In x (anchors cat os) ->
  exists k o, nth_error os k = Some o /\ x = lit "sec:" ++ makeSpaceLess (o_cat o) /\ teqb (o_cat o) (match k with O => cat | S k => match nth_error os k with Some p => o_cat p | None => [] end end) = false.
Proof.
  induction os as [|o os IH]; intros cat x I; [destruct I|].
  cbn [anchors] in I. apply in_app_or in I as [I | I].
  - destruct (teqb (o_cat o) cat) eqn:E; [destruct I|]. destruct I as [<- | []]. exists O, o. auto.
  - destruct (IH _ _ I) as (k & p & N & -> & T). exists (S k), p. split; [exact N | split; [reflexivity|]].
    destruct k; simpl in *; exact T.
Qed.

Lemma together_tail : forall c l, together (c :: l) -> together l.
Proof. intros c l T i j k d H A B. apply (T (S i) (S j) (S k) d); auto. lia. Qed.

Lemma anchors_nodup : forall os cat, together (map o_cat os) ->
  (forall a b, In a os -> In b os -> makeSpaceLess (o_cat a) = makeSpaceLess (o_cat b) -> o_cat a = o_cat b) ->
  NoDup (anchors cat os).
Proof.
  induction os as [|o os IH]; intros cat T J; [constructor|].
  cbn [anchors].
  assert (R : NoDup (anchors (o_cat o) os)).
  { apply IH; [apply (together_tail (o_cat o)); exact T | intros; apply J; auto; right; auto]. }
  destruct (teqb (o_cat o) cat); [exact R|].
  cbn [app]. constructor; [|exact R].
  intro I. destruct (anchors_in2 _ _ _ I) as (k & p & N & E & F).
  apply app_inv_head in E.
  assert (IN : In p os) by (eapply nth_error_In; eauto).
  assert (C : o_cat o = o_cat p) by (apply J; [left; auto | right; auto | exact E]).
  assert (X : teqb (o_cat p) (o_cat p) = true) by (apply teqb_eq; reflexivity).
  destruct k as [|k].
  - rewrite C in F. congruence.
  - pose proof T as T2. cbn [map] in T2.
    assert (L : (k < List.length os)%nat).
    { assert (S k < List.length os)%nat by (apply nth_error_Some; congruence). lia. }
    destruct (nth_error os k) as [q|] eqn:K; [| apply nth_error_None in K; lia].
    assert (Y : nth_error (o_cat o :: map o_cat os) (S k) = Some (o_cat o)).
    { apply (T2 0 (S k) (S (S k)) (o_cat o))%nat; [lia | reflexivity |].
      change (nth_error (map o_cat os) (S k) = Some (o_cat o)). rewrite nth_error_map, N. simpl. congruence. }
    change (nth_error (map o_cat os) k = Some (o_cat o)) in Y. rewrite nth_error_map, K in Y. simpl in Y. injection Y as Y.
    rewrite Y, C in F. congruence.
Qed.

(** ** LaTeX *)
Lemma latex_seen : forall s, tex_plain s -> seen_tex (makeLatex s) = filter (fun c => negb (Ascii.eqb c "-")) s.
Proof.
  induction s as [|c s IH]; intro T; [reflexivity|].
  assert (T' : tex_plain s) by (intros d I; apply T; right; auto).
  specialize (IH T').
  cbn [makeLatex filter]. destruct (Ascii.eqb c "_") eqn:U.
  - apply Ascii.eqb_eq in U. subst c. cbn [orb app]. change (seen_tex ("\"%char :: "_"%char :: makeLatex s)) with ("_"%char :: seen_tex (makeLatex s)).
    rewrite IH. reflexivity.
  - destruct (Ascii.eqb c "-") eqn:D.
    + apply Ascii.eqb_eq in D. subst c. cbn [orb app]. change (seen_tex ("\"%char :: "-"%char :: makeLatex s)) with (seen_tex (makeLatex s)).
      rewrite IH. reflexivity.
    + cbn [orb app negb].
      assert (B : c <> "\"%char). { intro E. apply (T c (or_introl eq_refl)). subst c. vm_compute. tauto. }
      assert (E : forall x, seen_tex (c :: x) = c :: seen_tex x).
      { intro x. destruct c as [[] [] [] [] [] [] [] []]; try reflexivity. exfalso. apply B. reflexivity. }
      rewrite E, IH. reflexivity.
Qed.
