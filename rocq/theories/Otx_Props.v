(** C332-C337: what is written about the options can be read. *)
From Coq Require Import List ZArith QArith Bool Ascii String Lia.
From Verif Require Import Base Otx_Model Otx_Spec Otx_Proofs.
Import ListNotations.
Local Open Scope list_scope.

(** ** C332: reading the default options file gives every option its default *)
Theorem C332_readback : forall pr os, prints_numbers pr -> Forall writable os ->
  exists vs, read_options (writeBonminOpt pr os) = Some (combine (map (fun o => lit "bonmin." ++ o_name o) os) vs) /\
             Forall2 (is_default pr) os vs.
Proof.
  intros pr os P F. exists (map (fun o => makeNumber pr (defaultAsString pr o)) os). split.
  - unfold read_options, writeBonminOpt. rewrite words_lines.
    + rewrite pairs_flat. f_equal. clear F. induction os as [|o os IH]; simpl; auto. f_equal. exact IH.
    + eapply Forall_impl; [|exact F]. intros o W. destruct (value_text pr o P W) as [A _].
      destruct W as (W1 & W2 & W3 & _). auto.
  - induction F as [|o os W F IH]; simpl; constructor; auto. apply value_text; auto.
Qed.
Print Assumptions C332_readback.

Definition digits (q : Q) : text := lit "1e-06".
Example C332_ex :
  let os := [Opt (lit "node_limit") (lit "Limits") (lit "Maximum number of nodes (# of them)") (DInt 2147483647);
             Opt (lit "algorithm") (lit "Algorithm choice") (lit "which") (DStr (lit "B-BB"));
             Opt (lit "tol") (lit "Algorithm choice") (lit "") (DNum (1 # 1000000))] in
  Forall writable os /\ prints_numbers digits /\
  read_options (writeBonminOpt digits os) =
    Some [(lit "bonmin.node_limit", lit "2147483647"); (lit "bonmin.algorithm", lit "B-BB"); (lit "bonmin.tol", lit "1e-06")].
Proof.
  assert (OL : forall s, existsb (Ascii.eqb (ascii_of_nat 10)) s = false -> one_line s).
  { intros s H I. assert (X : existsb (Ascii.eqb (ascii_of_nat 10)) s = true)
      by (apply existsb_exists; exists (ascii_of_nat 10); split; [exact I | reflexivity]). congruence. }
  assert (AW : forall c s, forallb (fun c => negb (blank c)) (c :: s) = true -> Ascii.eqb c "#" = false -> a_word (c :: s)).
  { intros c s A B. split; [discriminate | split; [exact A |]]. simpl. intro E. subst c. discriminate B. }
  cbv zeta. split; [| split].
  - repeat (apply Forall_cons || apply Forall_nil);
      (split; [apply AW; reflexivity | split; [apply OL; reflexivity | split; [apply OL; reflexivity |]]]); cbn [o_def].
    + lia.
    + split; [apply AW; reflexivity |]. intros [H | [H | [H | [H | []]]]]; discriminate H.
    + split; apply Qle_bool_iff; vm_compute; reflexivity.
  - intro q. split; [discriminate |]. unfold digits. simpl. intros c H.
    repeat (destruct H as [<- | H]; [solve [repeat (first [left; reflexivity | right])] |]). destruct H.
  - vm_compute. reflexivity.
Qed.

(** ** C333: integers are read back exactly: not the smallest one *)
Theorem C333_refuted : ~ C333_full.
Proof.
  intro H.
  assert (W : a_word (lit "n")) by (split; [discriminate | split; [reflexivity | discriminate]]).
  assert (L : one_line []) by (intros []).
  destruct (H digits (lit "n") [] [] (-2147483648)%Z ltac:(lia) W L L) as (v & A & B).
  vm_compute in A. injection A as <-. vm_compute in B. discriminate B.
Qed.
Print Assumptions C333_refuted.

Theorem C333_partial : forall pr n c d z, (-2147483648 < z <= 2147483647)%Z -> a_word n -> one_line c -> one_line d ->
  exists v, read_options (writeBonminOpt pr [Opt n c d (DInt z)]) = Some [(lit "bonmin." ++ n, v)] /\ int_of v = Some z.
Proof.
  intros pr n c d z Z N C D.
  set (o := Opt n c d (DInt z)).
  assert (V : a_word (makeNumber pr (defaultAsString pr o)) /\ int_of (makeNumber pr (defaultAsString pr o)) = Some z).
  { unfold defaultAsString, o, o_def, makeString_int.
    destruct (Z.leb_spec int_max z) as [E | E].
    - change (makeNumber pr (lit "INT_MAX")) with (pr_int int_max). destruct (pr_int_chars int_max).
      split; [apply num_word; auto | rewrite int_of_pr; f_equal; unfold int_max in *; lia].
    - destruct (Z.leb_spec z (- int_max)) as [E2 | E2].
      + change (makeNumber pr (lit "-INT_MAX")) with (pr_int (- int_max)). destruct (pr_int_chars (- int_max)).
        split; [apply num_word; auto | rewrite int_of_pr; f_equal; unfold int_max in *; lia].
      + destruct (pr_int_chars z). rewrite makeNumber_other by (apply num_not_standing; auto).
        split; [apply num_word; auto | apply int_of_pr]. }
  destruct V as [V1 V2]. exists (makeNumber pr (defaultAsString pr o)). split; [|exact V2].
  unfold read_options, writeBonminOpt. rewrite words_lines; [reflexivity|].
  constructor; [|constructor]. auto.
Qed.
Print Assumptions C333_partial.
Example C333_ex : read_options (writeBonminOpt digits [Opt (lit "n") [] [] (DInt (-42))]) = Some [(lit "bonmin.n", lit "-42")].
Proof. vm_compute. reflexivity. Qed.

(** ** C334: the LaTeX table shows the names of the options: hyphens are lost *)
Theorem C334_refuted : ~ C334_full.
Proof.
  intro H.
  assert (T : tex_plain (lit "a-b")).
  { intros c [<- | [<- | [<- | []]]] I; vm_compute in I; repeat (destruct I as [I | I]; [discriminate I |]); exact I. }
  specialize (H _ T). vm_compute in H. discriminate H.
Qed.
Print Assumptions C334_refuted.

(** Exactly the hyphens are lost; underscores are shown. *)
Theorem C334_partial : forall s, tex_plain s ->
  seen_tex (makeLatex s) = filter (fun c => negb (Ascii.eqb c "-")) s /\ (~ In "-"%char s -> seen_tex (makeLatex s) = s).
Proof.
  intros s T. pose proof (latex_seen s T) as E. split; [exact E|]. rewrite E. clear.
  induction s as [|c s IH]; intro H; [reflexivity|]. cbn [filter].
  destruct (Ascii.eqb c "-") eqn:D.
  - apply Ascii.eqb_eq in D. exfalso. apply H. left. exact D.
  - cbn [negb]. f_equal. apply IH. intro I. apply H. right. exact I.
Qed.
Print Assumptions C334_partial.
Example C334_ex : makeLatex (lit "oa_cuts_scope") = lit "oa\_cuts\_scope" /\ seen_tex (makeLatex (lit "oa_cuts_scope")) = lit "oa_cuts_scope" /\
  seen_tex (makeLatex (lit "B-OA")) = lit "BOA".
Proof. vm_compute. auto. Qed.

(** ** C335: the links of the table *)
Theorem C335_refuted : ~ C335_full.
Proof.
  intro H. pose (t := fun _ : text => true).
  pose (o := fun c => Opt (lit "x") c [] DUnknown).
  specialize (H t t t t [o (lit "a b"); o (lit "a_b")]).
  vm_compute in H. destruct H as [_ H].
  match type of H with ?P -> _ => assert (T : P) end.
  { intros i j k c L A B.
    destruct i as [|[|i]]; destruct k as [|[|[|k]]]; try (exfalso; lia); try discriminate A; try discriminate B;
    destruct j; lia. }
  specialize (H T). inversion H as [|x l N D]. apply N. left. reflexivity.
Qed.
Print Assumptions C335_refuted.

Lemma spaceless_bare : forall s, makeSpaceLess s = bare s.
Proof.
  induction s as [|c s IH]; [reflexivity|]. cbn [makeSpaceLess bare filter existsb].
  destruct (Ascii.eqb c " "); [exact IH|]. change tab with (ascii_of_nat 9).
  destruct (Ascii.eqb c (ascii_of_nat 9)); [exact IH|]. destruct (Ascii.eqb c "_"); [exact IH|].
  cbn [orb negb]. rewrite IH. reflexivity.
Qed.
(** The links are the anchors, in order; and anchors are distinct when categories differ in more than blanks and underscores. *)
Theorem C335_partial : forall b1 b2 b3 b4 os,
  let '(page, anch) := latexHtmlDoc b1 b2 b3 b4 os in
  links page = map (fun a => "#"%char :: a) anch /\
  (together (map o_cat os) ->
   (forall a b, In a os -> In b os -> o_cat a <> o_cat b -> bare (o_cat a) <> bare (o_cat b)) -> NoDup anch).
Proof.
  intros b1 b2 b3 b4 os. unfold latexHtmlDoc. split.
  - unfold html_list. rewrite !links_app, links_rows. cbn. rewrite app_nil_r. reflexivity.
  - intros T J. apply anchors_nodup; [exact T|].
    intros a b A B E. destruct (teqb (o_cat a) (o_cat b)) eqn:D; [apply teqb_eq; exact D|].
    exfalso. apply (J a b A B); [|rewrite <- !spaceless_bare; exact E]. intro F. apply teqb_eq in F. congruence.
Qed.
Print Assumptions C335_partial.
Example C335_ex : let t := fun _ : text => true in
  let o := fun n c => Opt (lit n) (lit c) [] DUnknown in
  let '(page, anch) := latexHtmlDoc t t t t [o "a" "NLP interface"; o "b" "NLP interface"; o "c" "Output"]%string in
  anch = [lit "sec:NLPinterface"; lit "sec:Output"] /\ links page = [lit "#sec:NLPinterface"; lit "#sec:Output"].
Proof. vm_compute. auto. Qed.

(** ** C336: the HTML is never well-formed *)
Theorem C336_refuted : ~ C336_full.
Proof. intro H. destruct (H (fun _ => true) (fun _ => true) (fun _ => true) (fun _ => true) []) as [A _]. vm_compute in A. discriminate A. Qed.
Print Assumptions C336_refuted.

(** For no list of options; the row closed once too often is the only flaw of the table of a list. *)
Theorem C336_partial : forall b1 b2 b3 b4 os,
  ~ well_formed (html_list b1 b2 b3 b4 os) /\ ~ well_formed (html_which b1 b2 b3 b4 os) /\
  exists before, html_list b1 b2 b3 b4 os = before ++ [Cl Tr] ++ [Cl Table] /\ well_formed (before ++ [Cl Table]).
Proof.
  intros b1 b2 b3 b4 os.
  assert (X : forall st l, run_html st (html_head ++ l) = run_html (Table :: st) l) by reflexivity.
  split; [| split].
  - unfold well_formed, html_list. rewrite X, run_rows. discriminate.
  - unfold well_formed, html_which, html_list. cbn [app run_html].
    change (run_html [Table] (html_head ++ html_rows b1 b2 b3 b4 [] os ++ html_tail) <> Some []).
    rewrite X, run_rows. discriminate.
  - exists (html_head ++ html_rows b1 b2 b3 b4 [] os). split.
    + unfold html_list. rewrite <- app_assoc. reflexivity.
    + unfold well_formed. rewrite <- app_assoc, X, run_rows. reflexivity.
Qed.
Print Assumptions C336_partial.

(** ** C337: one row per option, under the header, with its name, type and validity *)
Definition row_texts (b1 b2 b3 b4 : text -> bool) (o : opt) : list text :=
  [o_name o; [match o_def o with DNum _ => "F" | DInt _ => "I" | DStr _ => "S" | DUnknown => "U" end%char];
   if b1 (o_name o) then ["+"%char] else ["-"%char]; if b2 (o_name o) then ["+"%char] else ["-"%char];
   if b3 (o_name o) then ["+"%char] else ["-"%char]; if b4 (o_name o) then ["+"%char] else ["-"%char]].

Theorem C337_rows : forall bbb boa bqg hyb os,
  filter (fun r => negb (Nat.eqb (List.length r) 0)) (rows_of [] (html_list bbb boa bqg hyb os)) =
  map list_ascii_of_string ["Option "; " type "; " B-BB"; " B-OA"; " B-QG"; " B-Hyb"]%string :: map (row_texts bbb boa bqg hyb) os.
Proof.
  intros b1 b2 b3 b4 os. unfold html_list.
  assert (H : forall l, rows_of [] (html_head ++ l) =
    map list_ascii_of_string ["Option "; " type "; " B-BB"; " B-OA"; " B-QG"; " B-Hyb"]%string :: rows_of [] l) by reflexivity.
  rewrite H. cbn [filter map List.length Nat.eqb negb]. f_equal.
  enough (G : forall cat, filter (fun r => negb (Nat.eqb (List.length r) 0)) (rows_of [] (html_rows b1 b2 b3 b4 cat os ++ html_tail)) =
    map (row_texts b1 b2 b3 b4) os) by apply G.
  induction os as [|o os IH]; intro cat; [reflexivity|].
  cbn [html_rows map]. rewrite <- !app_assoc.
  assert (R : forall l, rows_of [] (html_row b1 b2 b3 b4 o ++ l) = row_texts b1 b2 b3 b4 o :: rows_of [] l) by reflexivity.
  destruct (teqb (o_cat o) cat).
  - cbn [app]. rewrite R. cbn [filter row_texts List.length Nat.eqb negb]. f_equal. apply IH.
  - assert (C : forall l, rows_of [] (html_cat (o_cat o) ++ l) = [] :: rows_of [] l) by reflexivity.
    rewrite C, R. cbn [filter row_texts List.length Nat.eqb negb]. f_equal. apply IH.
Qed.
Print Assumptions C337_rows.
Example C337_ex : let t := fun _ : text => true in let f := fun _ : text => false in
  rows_of [] (html_list t f f t [Opt (lit "a") (lit "c") [] (DInt 3)]) =
  [map lit ["Option "; " type "; " B-BB"; " B-OA"; " B-QG"; " B-Hyb"]%string; []; map lit ["a"; "I"; "+"; "-"; "-"; "+"]%string; []].
Proof. vm_compute. reflexivity. Qed.
