From Verif Require Import Base Ifp_Model Ifp_Spec.
#[local] Open Scope string_scope.
#[local] Open Scope Q_scope.

(** ** Names *)
Fixpoint ends_with (s n : string) : bool := String.eqb s n || match n with EmptyString => false | String _ t => ends_with s t end.
Lemma ends_with_app r s : ends_with s (r ++ s) = true.
Proof.
  induction r as [|c r IH]; cbn [append ends_with].
  - destruct s; cbn [ends_with]; rewrite String.eqb_refl; reflexivity.
  - rewrite IH. apply orb_true_r.
Qed.
Lemma append_inj p a b : p ++ a = p ++ b -> a = b.
Proof. induction p; cbn [append]; auto. intros E. injection E as E. auto. Qed.
Lemma append_split p q a b : p ++ a = q ++ b -> (exists r, a = r ++ b) \/ (exists r, b = r ++ a).
Proof.
  revert q; induction p as [|c p IH]; intros [|d q] E; cbn [append] in E.
  - left. exists "". auto.
  - left. exists (String d q). auto.
  - right. exists (String c p). auto.
  - injection E as _ E. eauto.
Qed.
Definition unlike (n : string) : bool := negb (ends_with small n) && negb (ends_with n small).
Lemma unlike_key p q n : unlike n = true -> p ++ small <> q ++ n.
Proof.
  unfold unlike. rewrite andb_true_iff, !negb_true_iff. intros [U V] E.
  apply append_split in E as [[r E]|[r E]].
  - rewrite E in V at 1. rewrite ends_with_app in V. discriminate.
  - rewrite E, ends_with_app in U. discriminate.
Qed.
Lemma asked_unlike n : In n asked -> n <> small -> unlike n = true.
Proof. intros I N. cbn in I. repeat (destruct I as [<-|I]; [try (vm_compute; reflexivity); destruct (N eq_refl)|]). destruct I. Qed.
Lemma interface_asked n : In n of_interface -> In n asked.
Proof. intros I. unfold asked. apply in_or_app; auto. Qed.

(** ** Lists of options *)
Lemma find_set k v k' o : find k (set k' v o) = if String.eqb k k' then Some v else find k o.
Proof. reflexivity. Qed.
Lemma get_wanted d o p n : get d o p n = (wanted d o p n, match find (p ++ n) o, find n o with None, None => false | _, _ => true end).
Proof. unfold get, wanted. destruct (find (p ++ n) o), (find n o); reflexivity. Qed.
Lemma put_list_len l o w : (l < List.length w)%nat -> List.length (put_list l o w) = List.length w.
Proof. intros L. unfold put_list. rewrite app_length, firstn_length. cbn [List.length]. rewrite skipn_length. lia. Qed.
Lemma put_list_nth l j o w : (l < List.length w)%nat -> nth j (put_list l o w) [] = if Nat.eqb j l then o else nth j w [].
Proof.
  intros L. unfold put_list. destruct (Nat.eqb_spec j l) as [->|N].
  - rewrite app_nth2; rewrite firstn_length_le by lia; [|lia]. rewrite Nat.sub_diag. reflexivity.
  - destruct (Nat.lt_trichotomy j l) as [J|[J|J]]; [|lia|].
    + rewrite app_nth1 by (rewrite firstn_length_le; lia). rewrite <- (firstn_skipn l w) at 2. rewrite app_nth1 by (rewrite firstn_length_le; lia). reflexivity.
    + rewrite app_nth2; rewrite firstn_length_le by lia; [|lia]. replace (j - l)%nat with (S (j - S l)) by lia. cbn [nth].
      rewrite <- (firstn_skipn (S l) w) at 2. rewrite app_nth2; rewrite firstn_length_le by lia; [|lia]. reflexivity.
Qed.
Lemma wanted_ext d o o' p n : find n o' = find n o -> find (p ++ n) o' = find (p ++ n) o -> wanted d o' p n = wanted d o p n.
Proof. unfold wanted. intros -> ->. reflexivity. Qed.
Lemma build_harmless built ks : harmless built -> forall o p n, In n asked -> find n (build built ks o) = find n o /\ find (p ++ n) (build built ks o) = find (p ++ n) o.
Proof.
  intros H. induction ks as [|k ks IH]; intros o p n I; cbn [build]; auto. destruct (IH (fst (built k o)) p n I) as [-> ->]. apply H; auto.
Qed.
Lemma fold_find_out t : forall o key, ~ In key (map fst t) -> find key (fold_left (fun o s => set (fst s) (snd s) o) t o) = find key o.
Proof.
  induction t as [|[k v] t IH]; intros o key N; cbn [fold_left fst snd]; auto. cbn in N. rewrite IH by tauto. rewrite find_set.
  destruct (String.eqb_spec key k) as [->|]; auto. tauto.
Qed.

Lemma if_t {A} (b : bool) (x y : A) : b = true -> (if b then x else y) = x.
Proof. intros ->. reflexivity. Qed.
Lemma if_f {A} (b : bool) (x y : A) : b = false -> (if b then x else y) = y.
Proof. intros ->. reflexivity. Qed.
Section Run.
Variable hf : bool.
Variable dflt ctor : string -> Q.
Variable built : kind -> opts -> opts * bool.
Let extract := extract hf dflt.
Let step := step hf dflt built.
Let run := run hf dflt built.
Let create := create hf dflt built.

(** ** The solver is on an existing list and of an available class *)
Definition ok (w : world) : Prop := forall a, i_app (w_itf w) = Some a -> (a_list a < List.length (w_lists w))%nat /\ (a_kind a = Filter -> hf = true).
Lemma extract_app w : i_app (w_itf (extract w)) = i_app (w_itf w).
Proof. unfold extract, Ifp_Model.extract. destruct (i_app (w_itf w)) eqn:E; auto. Qed.
Lemma extract_model w : i_model (w_itf (extract w)) = i_model (w_itf w).
Proof. unfold extract, Ifp_Model.extract. destruct (i_app (w_itf w)) eqn:E; auto. Qed.
Lemma extract_lin w : i_lin (w_itf (extract w)) = i_lin (w_itf w).
Proof. unfold extract, Ifp_Model.extract. destruct (i_app (w_itf w)) eqn:E; auto. Qed.
Lemma extract_len w : ok w -> List.length (w_lists (extract w)) = List.length (w_lists w).
Proof.
  intros O. unfold extract, Ifp_Model.extract. destruct (i_app (w_itf w)) as [a|] eqn:E; auto. cbn [w_lists]. apply put_list_len. apply O; auto.
Qed.
Lemma extract_ok w : ok w -> ok (extract w).
Proof. intros O a E. rewrite extract_app in E. rewrite extract_len by auto. auto. Qed.
Lemma create_cases0 l p w w' e o0 : nth_error (w_lists w) l = Some o0 -> create l p w = Ok (w', e) ->
  i_app (w_itf w) = None /\ (l < List.length (w_lists w))%nat /\
  ((e = true /\ hf = false /\ (solver_asked dflt (o0) p == 1 \/ solver_asked dflt (o0) p == 2) /\
     w_lists w' = w_lists w /\ i_app (w_itf w') = None /\ i_val (w_itf w') = i_val (w_itf w) /\ i_cut (w_itf w') = i_cut (w_itf w) /\ i_lin (w_itf w') = i_lin (w_itf w)) \/
   exists k dbg test, is_asked (solver_asked dflt (o0) p) k /\ (k = Filter -> hf = true) /\
     let o := o0 in
     let w1 := mkW (put_list l (build built dbg (fst (built k o))) (w_lists w))
                   (mkI (Some (mkApp k l p)) (i_debug (w_itf w) ++ dbg) test (i_val (w_itf w)) (i_inf (w_itf w)) (i_cut (w_itf w)) (i_lin (w_itf w)) (i_model (w_itf w))) in
     ((snd (built k o) = true /\ w' = extract w1 /\ e = false) \/ (snd (built k o) = false /\ w' = w1 /\ e = true))).
Proof.
  intros N. unfold create, Ifp_Model.create. rewrite N. rename o0 into o.
  assert (L : (l < List.length (w_lists w))%nat) by (apply nth_error_Some; congruence).
  destruct (i_app (w_itf w)) eqn:A; [discriminate|].
  cbv beta zeta. rewrite get_wanted. cbn [fst]. unfold solver_asked. intros C. split; [auto|]. split; [auto|].
  destruct (Qeq_bool (wanted dflt o p "nlp_solver") 1) eqn:E1; [apply Qeq_bool_iff in E1|].
  { destruct (Bool.bool_dec hf true) as [Hf|Hf]; [|apply not_true_is_false in Hf]; [rewrite (if_t _ _ _ Hf) in C|rewrite (if_f _ _ _ Hf) in C].
    - right. exists Filter, [Ipopt], false. split; [cbn; auto|]. split; auto. destruct (snd (built Filter o)) eqn:B; injection C as <- <-; auto.
    - left. injection C as <- <-. cbn. auto 10. }
  destruct (Qeq_bool (wanted dflt o p "nlp_solver") 0) eqn:E0; [apply Qeq_bool_iff in E0|].
  { right. exists Ipopt, (if hf then [Filter] else []), false. split; [cbn; auto|]. split; [discriminate|].
    destruct (snd (built Ipopt o)) eqn:B; injection C as <- <-; auto. }
  destruct (Qeq_bool (wanted dflt o p "nlp_solver") 2) eqn:E2; [apply Qeq_bool_iff in E2|discriminate].
  destruct (Bool.bool_dec hf true) as [Hf|Hf]; [|apply not_true_is_false in Hf]; [rewrite (if_t _ _ _ Hf) in C|rewrite (if_f _ _ _ Hf) in C].
  - right. exists Filter, [Ipopt], true. split; [cbn; auto|]. split; auto. destruct (snd (built Filter o)) eqn:B; injection C as <- <-; auto.
  - left. injection C as <- <-. cbn. auto 10.
Qed.
Lemma create_cases l p w w' e : create l p w = Ok (w', e) ->
  i_app (w_itf w) = None /\ (l < List.length (w_lists w))%nat /\
  ((e = true /\ hf = false /\ (solver_asked dflt (nth l (w_lists w) []) p == 1 \/ solver_asked dflt (nth l (w_lists w) []) p == 2) /\
     w_lists w' = w_lists w /\ i_app (w_itf w') = None /\ i_val (w_itf w') = i_val (w_itf w) /\ i_cut (w_itf w') = i_cut (w_itf w) /\ i_lin (w_itf w') = i_lin (w_itf w)) \/
   exists k dbg test, is_asked (solver_asked dflt (nth l (w_lists w) []) p) k /\ (k = Filter -> hf = true) /\
     let o := nth l (w_lists w) [] in
     let w1 := mkW (put_list l (build built dbg (fst (built k o))) (w_lists w))
                   (mkI (Some (mkApp k l p)) (i_debug (w_itf w) ++ dbg) test (i_val (w_itf w)) (i_inf (w_itf w)) (i_cut (w_itf w)) (i_lin (w_itf w)) (i_model (w_itf w))) in
     ((snd (built k o) = true /\ w' = extract w1 /\ e = false) \/ (snd (built k o) = false /\ w' = w1 /\ e = true))).
Proof.
  intros C. destruct (nth_error (w_lists w) l) as [o|] eqn:N; [|unfold create, Ifp_Model.create in C; rewrite N in C; discriminate].
  assert (E : o = nth l (w_lists w) []) by (symmetry; apply nth_error_nth; auto). pose proof (create_cases0 l p w w' e o N C) as X. rewrite E in X. exact X.
Qed.
Lemma create_ok l p w w' e : create l p w = Ok (w', e) -> ok w' /\ List.length (w_lists w') = List.length (w_lists w).
Proof.
  intros C. apply create_cases in C as (A & L & [(-> & _ & _ & E1 & E2 & _)|(k & dbg & test & _ & F & C)]).
  - split; [intros a Ea; congruence|congruence].
  - cbn zeta in C. set (w1 := mkW _ _) in C.
    assert (O : ok w1).
    { intros a E. injection E as <-. cbn [a_list a_kind w_lists w1]. rewrite put_list_len; auto. }
    assert (Ln : List.length (w_lists w1) = List.length (w_lists w)) by (cbn [w1 w_lists]; apply put_list_len; auto).
    destruct C as [(_ & -> & _)|(_ & -> & _)]; [split; [apply extract_ok; auto|rewrite extract_len; auto]|auto].
Qed.
Lemma step_ok w o w' e : ok w -> step w o = Ok (w', e) -> ok w' /\ List.length (w_lists w') = List.length (w_lists w).
Proof.
  intros O S. destruct o as [l p md|k l p|l k v|t|]; unfold step, Ifp_Model.step in S.
  - apply bind_ok in S as [[w1 e1] [C S]].
    assert (ok w1 /\ List.length (w_lists w1) = List.length (w_lists w)) as [O1 L1].
    { destruct (i_app (w_itf w)); [injection C as <- <-; auto|apply (create_ok _ _ _ _ _ C)]. }
    destruct e1; [injection S as <- <-; auto|]. destruct md; [|discriminate]. injection S as <- <-. split; auto.
  - destruct (match k with Filter => hf | Ipopt => true end && Nat.ltb l (List.length (w_lists w))) eqn:B; [|discriminate]. injection S as <- <-.
    apply andb_true_iff in B as [B1 B2]. apply Nat.ltb_lt in B2. split; auto. intros a E. injection E as <-. cbn. split; auto. intros ->. auto.
  - destruct (nth_error (w_lists w) l) as [o|] eqn:N; [|discriminate]. injection S as <- <-.
    assert (L : (l < List.length (w_lists w))%nat) by (apply nth_error_Some; congruence).
    cbn [w_lists]. rewrite put_list_len by auto. split; auto. intros a E. cbn [w_lists]. rewrite put_list_len; auto.
  - destruct (i_app (w_itf w)) as [a|] eqn:A; injection S as <- <-; auto. destruct (O a A) as [L F].
    set (w1 := mkW _ _). assert (O1 : ok w1) by (intros b E; cbn [w1 w_lists]; rewrite put_list_len by auto; apply O; auto).
    fold extract. split; [apply extract_ok; auto|]. rewrite extract_len by auto. cbn [w1 w_lists]. apply put_list_len; auto.
  - destruct (i_model (w_itf w)); [|discriminate]. injection S as <- <-. auto.
Qed.
Lemma run_ok ops : forall w w' e, ok w -> run ops w = Ok (w', e) -> ok w' /\ List.length (w_lists w') = List.length (w_lists w).
Proof.
  induction ops as [|o t IH]; intros w w' e O R; unfold run in R; cbn [Ifp_Model.run] in R.
  - injection R as <- <-. auto.
  - apply bind_ok in R as [[w1 e1] [S R]]. apply bind_ok in R as [[w2 e2] [R X]]. injection X as <- <-.
    destruct (step_ok w o w1 e1 O S) as [O1 L1]. destruct (IH w1 w2 e2 O1 R) as [O2 L2]. split; auto. congruence.
Qed.
Lemma start_ok m : ok (start ctor m).
Proof. intros a E. discriminate. Qed.

(** ** What is read *)
Lemma plain_of n : In n of_interface -> n <> radius -> n <> small -> mem n plain = true.
Proof. intros I N1 N2. cbn in I. repeat (destruct I as [<-|I]; [try (vm_compute; reflexivity); solve [destruct (N1 eq_refl) | destruct (N2 eq_refl)]|]). destruct I. Qed.
Lemma extract_val w a n : ok w -> i_app (w_itf w) = Some a -> In n of_interface ->
  i_val (w_itf (extract w)) n = wanted (default_of dflt (a_kind a)) (list_of w a) (a_prefix a) n.
Proof.
  intros O A I. destruct (O a A) as [L F]. unfold extract, Ifp_Model.extract. rewrite A. cbn [w_itf i_val]. fold (list_of w a). rewrite get_wanted. cbn [fst snd].
  assert (W : forall d, d n = dflt n \/ find (a_prefix a ++ n) (list_of w a) <> None \/ find n (list_of w a) <> None ->
    wanted dflt (list_of w a) (a_prefix a) n = wanted d (list_of w a) (a_prefix a) n).
  { intros d [D|[D|D]]; unfold wanted; destruct (find (a_prefix a ++ n) (list_of w a)), (find n (list_of w a)); congruence. }
  assert (Fi : forall x y : Q, (if is_filter hf (a_kind a) then x else y) = match a_kind a with Filter => x | Ipopt => y end).
  { intros x y. unfold is_filter. destruct (a_kind a); auto. rewrite F; auto. }
  assert (Dn : n <> radius -> n <> small -> default_of dflt (a_kind a) n = dflt n).
  { intros N1 N2. unfold default_of. destruct (a_kind a); auto. destruct (String.eqb_spec n "max_random_point_radius"); [contradiction|].
    destruct (String.eqb_spec n "resolve_on_small_infeasibility"); [contradiction|auto]. }
  assert (Ex : forall v, (n = radius \/ n = small) -> default_of dflt Filter n = v ->
     (if is_filter hf (a_kind a) && negb (match find (a_prefix a ++ n) (list_of w a), find n (list_of w a) with None, None => false | _, _ => true end)
      then v else wanted dflt (list_of w a) (a_prefix a) n) = wanted (default_of dflt (a_kind a)) (list_of w a) (a_prefix a) n).
  { intros v _ Dv. destruct (find (a_prefix a ++ n) (list_of w a)) eqn:E1.
    - cbn [negb]. rewrite andb_false_r. apply W. right; left; congruence.
    - destruct (find n (list_of w a)) eqn:E2.
      + cbn [negb]. rewrite andb_false_r. apply W. right; right; congruence.
      + cbn [negb]. rewrite andb_true_r, Fi. unfold wanted. rewrite E1, E2. destruct (a_kind a); auto. }
  destruct (String.eqb_spec n radius) as [E|N1].
  - replace (mem n plain) with false by (subst; reflexivity). apply Ex; auto. subst. reflexivity.
  - destruct (String.eqb_spec n small) as [E|N2].
    + replace (mem n plain) with false by (subst; reflexivity). apply Ex; auto. subst. reflexivity.
    + rewrite plain_of by auto. apply W. left. auto.
Qed.
(** What extracting does to the lists: at most one setting, of resolve_on_small_infeasibility with the prefix, where there was none. *)
Lemma extract_lists w j key : ok w -> find key (nth j (w_lists (extract w)) []) = find key (nth j (w_lists w) []) \/
  exists a, i_app (w_itf w) = Some a /\ hf = true /\ a_kind a = Filter /\ j = a_list a /\ key = a_prefix a ++ small /\ find key (nth j (w_lists w) []) = None /\
    find small (nth j (w_lists w) []) = None /\ find key (nth j (w_lists (extract w)) []) = Some (1 # 1000000).
Proof.
  intros O. unfold extract, Ifp_Model.extract. destruct (i_app (w_itf w)) as [a|] eqn:A; auto. destruct (O a A) as [L F]. cbn [w_lists].
  change (firstn (a_list a) (w_lists w) ++ ?x :: skipn (S (a_list a)) (w_lists w))%list with (put_list (a_list a) x (w_lists w)). rewrite put_list_nth by auto.
  destruct (Nat.eqb_spec j (a_list a)) as [->|]; auto. rewrite get_wanted. cbn [snd].
  destruct (is_filter hf (a_kind a)) eqn:Fi; cbn [andb]; auto.
  destruct (find (a_prefix a ++ small) (nth (a_list a) (w_lists w) [])) eqn:E1; cbn [negb]; auto.
  destruct (find small (nth (a_list a) (w_lists w) [])) eqn:E2; cbn [negb]; auto.
  rewrite find_set. destruct (String.eqb_spec key (a_prefix a ++ small)) as [->|]; auto.
  right. exists a. unfold is_filter in Fi. destruct (a_kind a) eqn:Ka; [discriminate|]. auto 10.
Qed.
Lemma extract_in_step w : ok w -> in_step dflt (extract w).
Proof.
  intros O a A n I. rewrite extract_app in A. rewrite (extract_val w a n O A I). unfold list_of.
  destruct (string_dec n small) as [->|N].
  - destruct (extract_lists w (a_list a) (a_prefix a ++ small) O) as [E|(a' & A' & Hf & K & _ & _ & E1 & E2 & E3)].
    + destruct (extract_lists w (a_list a) small O) as [E'|(a' & A' & Hf & K & _ & P & E1 & E2 & E3)].
      * unfold wanted. rewrite E, E'. reflexivity.
      * rewrite A in A'. injection A' as <-. unfold wanted at 1. rewrite <- P, E1, K. unfold wanted. rewrite <- P, E3. reflexivity.
    + rewrite A in A'. injection A' as <-. unfold wanted at 1. rewrite E1, E2, K. unfold wanted. rewrite E3. reflexivity.
  - pose proof (asked_unlike n (interface_asked n I) N) as U. symmetry. apply wanted_ext.
    + destruct (extract_lists w (a_list a) n O) as [E|(a' & _ & _ & _ & _ & P & _)]; auto. destruct (unlike_key (a_prefix a') "" n U). cbn. auto.
    + destruct (extract_lists w (a_list a) (a_prefix a ++ n) O) as [E|(a' & _ & _ & _ & _ & P & _)]; auto. destruct (unlike_key (a_prefix a') (a_prefix a) n U). auto.
Qed.
Lemma in_step_step w o w' e : ok w -> step w o = Ok (w', e) -> in_step dflt w -> e = false ->
  match o with SetOpt _ _ _ | SetSolver _ _ _ => False | _ => True end -> in_step dflt w'.
Proof.
  intros O S J Ee T. subst e. destruct o as [l p md|k l p|l k v|t|]; try contradiction; unfold step, Ifp_Model.step in S.
  - apply bind_ok in S as [[w1 e1] [C S]]. destruct e1; [discriminate|]. destruct md; [|discriminate]. injection S as <-.
    assert (J1 : in_step dflt w1).
    { destruct (i_app (w_itf w)) eqn:A; [injection C as <-; auto|]. apply create_cases in C as (_ & L & [(X & _)|(k & dbg & test & _ & F & C)]); [discriminate|].
      cbn zeta in C. destruct C as [(_ & -> & _)|(_ & _ & X)]; [|discriminate]. apply extract_in_step.
      intros b E. injection E as <-. cbn [a_list a_kind w_lists]. rewrite put_list_len; auto. }
    intros a A n I. exact (J1 a A n I).
  - destruct (i_app (w_itf w)) as [a|] eqn:A; injection S as <-; auto. apply extract_in_step.
    intros b E. cbn [w_lists]. rewrite put_list_len; auto. apply O; auto.
  - destruct (i_model (w_itf w)); [|discriminate]. injection S as <-. exact J.
Qed.

(** ** A setting nobody made is not there *)
Definition absent (key : string) (w : world) : Prop := forall j, find key (nth j (w_lists w) []) = None.
Definition quiet (q n : string) : Prop := In n asked /\ (n <> small \/ hf = false).
Lemma absent_extract q n w : quiet q n -> ok w -> absent (q ++ n) w -> absent (q ++ n) (extract w).
Proof.
  intros [I Q] O A j. destruct (extract_lists w j (q ++ n) O) as [E|(a & _ & Hf & _ & _ & P & _)]; [rewrite E; auto|].
  destruct Q as [Q|Q]; [|congruence]. destruct (unlike_key (a_prefix a) q n (asked_unlike n I Q)). auto.
Qed.
Lemma absent_step q n w o w' e : harmless built -> quiet q n -> ok w -> absent (q ++ n) w -> ~ sets (q ++ n) o -> step w o = Ok (w', e) -> absent (q ++ n) w'.
Proof.
  intros H Qn O A N S. destruct o as [l p md|k l p|l k v|t|]; unfold step, Ifp_Model.step in S.
  - apply bind_ok in S as [[w1 e1] [C S]].
    assert (A1 : absent (q ++ n) w1).
    { destruct (i_app (w_itf w)) eqn:Ap; [injection C as <- <-; auto|]. apply create_cases in C as (_ & L & [(_ & _ & _ & E1 & _)|(k & dbg & test & _ & F & C)]).
      - intros j. rewrite E1. apply A.
      - cbn zeta in C. set (w0 := mkW _ _) in C.
        assert (O0 : ok w0) by (intros b E; injection E as <-; cbn [a_list a_kind w_lists w0]; rewrite put_list_len; auto).
        assert (A0 : absent (q ++ n) w0).
        { intros j. cbn [w0 w_lists]. rewrite put_list_nth by auto. destruct (Nat.eqb j l); auto. destruct Qn as [I _].
          destruct (build_harmless built dbg H (fst (built k (nth l (w_lists w) []))) q n I) as [_ ->].
          destruct (H k (nth l (w_lists w) []) q n I) as [_ ->]. apply A. }
        destruct C as [(_ & -> & _)|(_ & -> & _)]; auto. apply absent_extract; auto. }
    destruct e1; [injection S as <- <-; auto|]. destruct md; [|discriminate]. injection S as <- <-. exact A1.
  - destruct (match k with Filter => hf | Ipopt => true end && Nat.ltb l (List.length (w_lists w))); [|discriminate]. injection S as <- <-. exact A.
  - destruct (nth_error (w_lists w) l) as [o|] eqn:E; [|discriminate]. injection S as <- <-.
    assert (L : (l < List.length (w_lists w))%nat) by (apply nth_error_Some; congruence).
    intros j. cbn [w_lists]. rewrite put_list_nth by auto. destruct (Nat.eqb j l); auto. rewrite find_set. cbn [sets] in N.
    destruct (String.eqb_spec (q ++ n) k) as [X|]; [symmetry in X; contradiction|]. rewrite <- (nth_error_nth _ _ [] E). apply A.
  - destruct (i_app (w_itf w)) as [a|] eqn:Ap; injection S as <- <-; auto. destruct (O a Ap) as [L F]. apply absent_extract; auto.
    + intros b E. cbn [w_lists]. rewrite put_list_len; auto.
    + intros j. cbn [w_lists]. rewrite put_list_nth by auto. destruct (Nat.eqb j (a_list a)); auto. rewrite fold_find_out by auto. apply A.
  - destruct (i_model (w_itf w)); [|discriminate]. injection S as <- <-. exact A.
Qed.
Lemma absent_run q n ops : harmless built -> quiet q n -> forall w w' e, ok w -> absent (q ++ n) w -> (forall o, In o ops -> ~ sets (q ++ n) o) -> run ops w = Ok (w', e) -> absent (q ++ n) w'.
Proof.
  intros H Qn. induction ops as [|o t IH]; intros w w' e O A N R; unfold run in R; cbn [Ifp_Model.run] in R.
  - injection R as <- <-. auto.
  - apply bind_ok in R as [[w1 e1] [S R]]. apply bind_ok in R as [[w2 e2] [R X]]. injection X as <- <-.
    apply (IH w1 w2 e2); auto.
    + apply (step_ok w o w1 e1 O S).
    + eapply absent_step; eauto. apply N. simpl; auto.
    + intros o' I. apply N. simpl; auto.
Qed.
Lemma absent_start key m : absent key (start ctor m).
Proof. intros j. unfold start. cbn [w_lists]. rewrite nth_repeat. reflexivity. Qed.

(** ** Further parts of the state *)
Lemma extract_wanted w a n d : ok w -> i_app (w_itf w) = Some a -> In n asked -> n <> small ->
  wanted d (list_of (extract w) a) (a_prefix a) n = wanted d (list_of w a) (a_prefix a) n.
Proof.
  intros O A I N. pose proof (asked_unlike n I N) as U. unfold list_of. apply wanted_ext.
  - destruct (extract_lists w (a_list a) n O) as [E|(a' & _ & _ & _ & _ & P & _)]; auto. destruct (unlike_key (a_prefix a') "" n U). cbn. auto.
  - destruct (extract_lists w (a_list a) (a_prefix a ++ n) O) as [E|(a' & _ & _ & _ & _ & P & _)]; auto. destruct (unlike_key (a_prefix a') (a_prefix a) n U). auto.
Qed.
Lemma extract_cut w a : i_app (w_itf w) = Some a ->
  i_cut (w_itf (extract w)) = if Qeq_bool (wanted dflt (list_of w a) (a_prefix a) "cut_strengthening_type") 0 then i_cut (w_itf w) else Some (a_kind a).
Proof. intros A. unfold extract, Ifp_Model.extract. rewrite A. cbv beta zeta. rewrite !get_wanted. reflexivity. Qed.
Lemma extract_inf w a : i_app (w_itf w) = Some a ->
  i_inf (w_itf (extract w)) = if Qltb (Qabs (nlp_upp dflt w a)) (Qabs (nlp_low dflt w a)) then Qabs (nlp_upp dflt w a) else Qabs (nlp_low dflt w a).
Proof. intros A. unfold extract, Ifp_Model.extract. rewrite A. cbv beta zeta. rewrite !get_wanted. reflexivity. Qed.
Lemma extract_never w n : In n never_read -> i_val (w_itf (extract w)) n = i_val (w_itf w) n.
Proof.
  intros I. unfold extract, Ifp_Model.extract. destruct (i_app (w_itf w)); auto. cbn [w_itf i_val].
  replace (mem n plain) with false; [replace (String.eqb n radius) with false; [replace (String.eqb n small) with false; [reflexivity|]|]|];
  cbn in I; repeat (destruct I as [<-|I]; [vm_compute; reflexivity|]); destruct I.
Qed.
Lemma step_never w o w' e n : In n never_read -> step w o = Ok (w', e) -> i_val (w_itf w') n = i_val (w_itf w) n.
Proof.
  intros I S. destruct o as [l p md|k l p|l k v|t|]; unfold step, Ifp_Model.step in S.
  - apply bind_ok in S as [[w1 e1] [C S]].
    assert (A1 : i_val (w_itf w1) n = i_val (w_itf w) n).
    { destruct (i_app (w_itf w)) eqn:Ap; [injection C as <- <-; auto|]. apply create_cases in C as (_ & L & [(_ & _ & _ & _ & _ & E & _)|(k & dbg & test & _ & F & C)]).
      - rewrite E. reflexivity.
      - cbn zeta in C. destruct C as [(_ & -> & _)|(_ & -> & _)]; auto. rewrite extract_never by auto. reflexivity. }
    destruct e1; [injection S as <- <-; auto|]. destruct md; [|discriminate]. injection S as <- <-. exact A1.
  - destruct (match k with Filter => hf | Ipopt => true end && Nat.ltb l (List.length (w_lists w))); [|discriminate]. injection S as <- <-. reflexivity.
  - destruct (nth_error (w_lists w) l); [|discriminate]. injection S as <- <-. reflexivity.
  - destruct (i_app (w_itf w)) as [a|] eqn:Ap; injection S as <- <-; auto. fold extract. rewrite extract_never by auto. reflexivity.
  - destruct (i_model (w_itf w)); [|discriminate]. injection S as <- <-. reflexivity.
Qed.
Lemma run_never ops n : In n never_read -> forall w w' e, run ops w = Ok (w', e) -> i_val (w_itf w') n = i_val (w_itf w) n.
Proof.
  intros I. induction ops as [|o t IH]; intros w w' e R; unfold run in R; cbn [Ifp_Model.run] in R; [injection R as <- <-; auto|].
  apply bind_ok in R as [[w1 e1] [S R]]. apply bind_ok in R as [[w2 e2] [R X]]. injection X as <- <-.
  rewrite (IH w1 w2 e2 R). eapply step_never; eauto.
Qed.
Lemma step_cut w o w' e : step w o = Ok (w', e) -> i_cut (w_itf w) <> None -> i_cut (w_itf w') <> None.
Proof.
  assert (X : forall v, i_cut (w_itf v) <> None -> i_cut (w_itf (extract v)) <> None).
  { intros v N. destruct (i_app (w_itf v)) as [a|] eqn:A; [rewrite (extract_cut v a A)|unfold extract, Ifp_Model.extract; rewrite A; auto]. destruct (Qeq_bool _ _); auto. discriminate. }
  intros S N. destruct o as [l p md|k l p|l k v|t|]; unfold step, Ifp_Model.step in S.
  - apply bind_ok in S as [[w1 e1] [C S]].
    assert (A1 : i_cut (w_itf w1) <> None).
    { destruct (i_app (w_itf w)) eqn:Ap; [injection C as <- <-; auto|]. apply create_cases in C as (_ & L & [(_ & _ & _ & _ & _ & _ & E & _)|(k & dbg & test & _ & F & C)]).
      - rewrite E. auto.
      - cbn zeta in C. destruct C as [(_ & -> & _)|(_ & -> & _)]; auto. }
    destruct e1; [injection S as <- <-; auto|]. destruct md; [|discriminate]. injection S as <- <-. exact A1.
  - destruct (match k with Filter => hf | Ipopt => true end && Nat.ltb l (List.length (w_lists w))); [|discriminate]. injection S as <- <-. auto.
  - destruct (nth_error (w_lists w) l); [|discriminate]. injection S as <- <-. auto.
  - destruct (i_app (w_itf w)) as [a|] eqn:Ap; injection S as <- <-; auto.
  - destruct (i_model (w_itf w)); [|discriminate]. injection S as <- <-. auto.
Qed.
Lemma run_cut ops : forall w w' e, run ops w = Ok (w', e) -> i_cut (w_itf w) <> None -> i_cut (w_itf w') <> None.
Proof.
  induction ops as [|o t IH]; intros w w' e R N; unfold run in R; cbn [Ifp_Model.run] in R; [injection R as <- <-; auto|].
  apply bind_ok in R as [[w1 e1] [S R]]. apply bind_ok in R as [[w2 e2] [R X]]. injection X as <- <-. eapply IH; eauto. eapply step_cut; eauto.
Qed.

(** An operation that does not touch the options of the solver leaves it and keeps the members in step. *)
Lemma quiet_step w o w' e a : ok w -> i_app (w_itf w) = Some a -> in_step dflt w -> ~ touches a o -> step w o = Ok (w', e) ->
  i_app (w_itf w') = Some a /\ in_step dflt w'.
Proof.
  intros O A J T S. destruct o as [l p md|k l p|l k v|t|].
  - assert (e = false) as ->.
    { unfold step, Ifp_Model.step in S. rewrite A in S. cbn [bind] in S. destruct md; [|discriminate]. injection S as _ <-. auto. }
    split; [|eapply (in_step_step w (Init l p md)); eauto; cbn; auto].
    unfold step, Ifp_Model.step in S. rewrite A in S. cbn [bind] in S. destruct md; [|discriminate]. injection S as <-. exact A.
  - destruct T. exact Logic.I.
  - unfold step, Ifp_Model.step in S. destruct (nth_error (w_lists w) l) as [o|] eqn:N; [|discriminate]. injection S as <- <-. split; [exact A|].
    intros b B n I. cbn [w_itf] in B |- *. rewrite A in B. injection B as <-. rewrite (J a A n I).
    assert (L : (l < List.length (w_lists w))%nat) by (apply nth_error_Some; congruence).
    assert (E : forall key, key <> k -> find key (nth (a_list a) (w_lists w) []) = find key (nth (a_list a) (put_list l (set k v o) (w_lists w)) []) \/ a_list a <> l).
    { intros key Nk. rewrite put_list_nth by auto. destruct (Nat.eqb_spec (a_list a) l) as [->|]; auto. left. rewrite find_set.
      destruct (String.eqb_spec key k); [contradiction|]. f_equal. apply nth_error_nth. exact N. }
    unfold list_of. cbn [w_lists]. destruct (Nat.eq_dec (a_list a) l) as [El|Nl].
    + apply wanted_ext.
      * assert (Nk : n <> k) by (intros Ek; apply T; split; [auto|exists n; auto]). destruct (E n Nk) as [X|X]; [exact X|contradiction].
      * assert (Nk : a_prefix a ++ n <> k) by (intros Ek; apply T; split; [auto|exists n; auto]). destruct (E _ Nk) as [X|X]; [exact X|contradiction].
    + rewrite put_list_nth by auto. apply Nat.eqb_neq in Nl. rewrite Nl. reflexivity.
  - assert (e = false) as -> by (unfold step, Ifp_Model.step in S; rewrite A in S; injection S as _ <-; auto).
    split; [|eapply (in_step_step w (ReadFile t)); eauto; cbn; auto].
    unfold step, Ifp_Model.step in S. rewrite A in S. injection S as <-. fold extract. rewrite extract_app. exact A.
  - unfold step, Ifp_Model.step in S. destruct (i_model (w_itf w)); [|discriminate]. injection S as <- <-. split; [exact A|exact J].
Qed.
Lemma quiet_run ops a : (forall o, In o ops -> ~ touches a o) -> forall w w' e, ok w -> i_app (w_itf w) = Some a -> in_step dflt w -> run ops w = Ok (w', e) ->
  i_app (w_itf w') = Some a /\ in_step dflt w'.
Proof.
  induction ops as [|o t IH]; intros N w w' e O A J R; unfold run in R; cbn [Ifp_Model.run] in R; [injection R as <- <-; auto|].
  apply bind_ok in R as [[w1 e1] [S R]]. apply bind_ok in R as [[w2 e2] [R X]]. injection X as <- <-.
  destruct (quiet_step w o w1 e1 a O A J (N o (or_introl eq_refl)) S) as [A1 J1].
  apply (IH (fun o I => N o (or_intror I)) w1 w2 e2); auto. apply (step_ok w o w1 e1 O S).
Qed.
Lemma read_file w a t w' e : ok w -> i_app (w_itf w) = Some a -> step w (ReadFile t) = Ok (w', e) ->
  e = false /\ exists w1, w' = extract w1 /\ ok w1 /\ w_itf w1 = w_itf w /\ list_of w1 a = fold_left (fun o s => set (fst s) (snd s) o) t (list_of w a) /\ i_app (w_itf w') = Some a.
Proof.
  intros O A S. unfold step, Ifp_Model.step in S. rewrite A in S. destruct (O a A) as [L F]. injection S as <- <-. split; auto. eexists. split; [reflexivity|].
  split; [intros b E; cbn [w_lists]; rewrite put_list_len by auto; apply O; auto|]. split; [reflexivity|].
  split; [|fold extract; rewrite extract_app; exact A].
  unfold list_of. cbn [w_lists]. rewrite put_list_nth by auto. rewrite Nat.eqb_refl. reflexivity.
Qed.
(** initialize with no solver: what it reads is the list it was given. *)
Lemma init_new w l p w' : ok w -> harmless built -> i_app (w_itf w) = None -> step w (Init l p true) = Ok (w', false) ->
  exists k w1, is_asked (solver_asked dflt (nth l (w_lists w) []) p) k /\ ok w1 /\ i_app (w_itf w1) = Some (mkApp k l p) /\
    (forall d n, In n asked -> wanted d (list_of w1 (mkApp k l p)) p n = wanted d (nth l (w_lists w) []) p n) /\
    w_lists w' = w_lists (extract w1) /\ i_app (w_itf w') = Some (mkApp k l p) /\ i_val (w_itf w') = i_val (w_itf (extract w1)) /\
    i_cut (w_itf w') = i_cut (w_itf (extract w1)) /\ i_inf (w_itf w') = i_inf (w_itf (extract w1)) /\ i_cut (w_itf w1) = i_cut (w_itf w).
Proof.
  intros O H A S. unfold step, Ifp_Model.step in S. rewrite A in S. apply bind_ok in S as [[v e] [C S]]. destruct e; [discriminate|]. injection S as <-.
  apply create_cases in C as (_ & L & [(X & _)|(k & dbg & test & K & F & C)]); [discriminate|]. cbn zeta in C. destruct C as [(_ & -> & _)|(_ & _ & X)]; [|discriminate].
  set (w1 := mkW _ _). exists k, w1. split; [exact K|].
  assert (O1 : ok w1) by (intros b E; injection E as <-; cbn [a_list a_kind w_lists w1]; rewrite put_list_len; auto).
  split; [exact O1|]. split; [reflexivity|]. split.
  - intros d n I. unfold list_of. cbn [w1 w_lists a_list]. rewrite put_list_nth by auto. rewrite Nat.eqb_refl.
    destruct (build_harmless built dbg H (fst (built k (nth l (w_lists w) []))) p n I) as [E1 E2].
    destruct (H k (nth l (w_lists w) []) p n I) as [E3 E4]. apply wanted_ext; congruence.
  - cbn [w_lists with_itf w_itf i_app i_val i_cut i_inf]. rewrite extract_app. auto 10.
Qed.
(** initialize with a solver. *)
Lemma init_old w l p w' e a : i_app (w_itf w) = Some a -> step w (Init l p true) = Ok (w', e) ->
  e = false /\ w_lists w' = w_lists w /\ i_app (w_itf w') = Some a /\ i_val (w_itf w') = i_val (w_itf w) /\ i_cut (w_itf w') = i_cut (w_itf w).
Proof.
  intros A S. unfold step, Ifp_Model.step in S. rewrite A in S. cbn [bind] in S. injection S as <- <-. cbn. auto.
Qed.
Lemma lin_step s w o w' e : (s = true -> i_app (w_itf w) <> None) -> reads_nothing s o -> step w o = Ok (w', e) -> i_lin (w_itf w) = Some (tols (w_itf w)) ->
  (s = true -> i_app (w_itf w') <> None) /\ i_lin (w_itf w') = Some (tols (w_itf w')).
Proof.
  intros Sa N S T. destruct o as [l p md|k l p|l k v|t|]; unfold step, Ifp_Model.step in S; cbn [reads_nothing] in N.
  - destruct (i_app (w_itf w)) as [a|] eqn:A; [|destruct (Sa N eq_refl)]. cbn [bind] in S. destruct md; [|discriminate]. injection S as <- <-. cbn. rewrite A. split; [discriminate|exact T].
  - destruct (match k with Filter => hf | Ipopt => true end && Nat.ltb l (List.length (w_lists w))); [|discriminate]. injection S as <- <-. cbn. split; [discriminate|exact T].
  - destruct (nth_error (w_lists w) l); [|discriminate]. injection S as <- <-. auto.
  - destruct N.
  - destruct (i_model (w_itf w)); [|discriminate]. injection S as <- <-. auto.
Qed.
Lemma lin_run s ops : (forall o, In o ops -> reads_nothing s o) -> forall w w' e, (s = true -> i_app (w_itf w) <> None) -> run ops w = Ok (w', e) ->
  i_lin (w_itf w) = Some (tols (w_itf w)) -> i_lin (w_itf w') = Some (tols (w_itf w')).
Proof.
  induction ops as [|o t IH]; intros N w w' e Sa R T; unfold run in R; cbn [Ifp_Model.run] in R; [injection R as <- <-; auto|].
  apply bind_ok in R as [[w1 e1] [S R]]. apply bind_ok in R as [[w2 e2] [R X]]. injection X as <- <-.
  destruct (lin_step s w o w1 e1 Sa (N o (or_introl eq_refl)) S T) as [Sa1 T1].
  apply (IH (fun o I => N o (or_intror I)) w1 w2 e2); auto.
Qed.
End Run.
