From Verif Require Import Base Cpy_Model Cpy_Spec.
#[local] Open Scope Q_scope.

Lemma setnth_len : forall A (l : list A) i a, List.length (setnth i a l) = List.length l.
Proof. induction l as [|b l IH]; intros [|i] a; cbn; auto. Qed.
Lemma setnth_same : forall A (l : list A) i a, (i < List.length l)%nat -> nth_error (setnth i a l) i = Some a.
Proof. induction l as [|b l IH]; intros [|i] a L; cbn in *; try lia; auto; apply IH; lia. Qed.
Lemma setnth_other : forall A (l : list A) i j a, i <> j -> nth_error (setnth i a l) j = nth_error l j.
Proof. induction l as [|b l IH]; intros [|i] [|j] a N; cbn; auto; try congruence; apply IH; congruence. Qed.
Lemma setnth_map : forall A B (f : A -> B) l i a, map f (setnth i a l) = setnth i (f a) (map f l).
Proof. induction l as [|b l IH]; intros [|i] a; cbn; auto; rewrite IH; reflexivity. Qed.
Lemma setnth_id : forall A (l : list A) i a, nth_error l i = Some a -> setnth i a l = l.
Proof. induction l as [|b l IH]; intros [|i] a E; cbn in *; try discriminate; [congruence|rewrite IH by exact E; reflexivity]. Qed.
Lemma setnth_upd : forall A (l : list A) i a, upd i a l = setnth i a l.
Proof.
  unfold upd. induction l as [|b l IH]; intros [|i] a; cbn [firstn skipn List.length app setnth]; try reflexivity.
  rewrite <- IH. reflexivity.
Qed.
Lemma nth_lt : forall A (l : list A) i a, nth_error l i = Some a -> (i < List.length l)%nat.
Proof. intros A l i a E. apply nth_error_Some. rewrite E. discriminate. Qed.

(** ** Generators *)
Lemma pars_copy_id : forall p, pars_copy p = p.
Proof. intros []. unfold pars_copy. cbn. destruct p_strat; reflexivity. Qed.
Lemma sub_copy_id : forall s, sub_copy s = s.
Proof. intros []. reflexivity. Qed.
Lemma kind_copy_id : forall k, kind_copy k = k.
Proof. intros []; cbn [kind_copy]; rewrite ?sub_copy_id; reflexivity. Qed.
Lemma ropts_copy_id : forall o, ropts_copy o = o.
Proof. intros []. reflexivity. Qed.

Lemma solves_app : forall i l m, solves i (l ++ m) = (solves i l + solves i m)%nat.
Proof. intros. unfold solves. rewrite filter_app, app_length. reflexivity. Qed.

Definition same (g h : gen) : Prop := settings_of h = settings_of g /\ g_begin h = g_begin g.
Lemma rounds_spec : forall rs i g l h m, rounds i rs g l = (h, m) ->
  same g h /\ exists e, m = l ++ e /\ Forall (fun x => x = Solved i) e /\ g_nLS h = (g_nLS g + List.length e)%nat.
Proof.
  induction rs as [|b rs IH]; intros i g l h m E; cbn [rounds] in E.
  - injection E as <- <-. split; [split; reflexivity|]. exists []. rewrite app_nil_r. split; [reflexivity|]. split; [constructor|cbn; lia].
  - set (g1 := if b then _ else g) in E.
    assert (G1 : same g g1 /\ g_nLS g1 = g_nLS g) by (unfold g1; destruct b; repeat split). destruct G1 as [[G1 G2] G3].
    destruct (_ && _).
    + apply IH in E. destruct E as [[A B] (e & -> & F & N)]. cbn in N.
      split; [split; [rewrite A; exact G1 | rewrite B; exact G2]|].
      exists (Solved i :: e). split; [rewrite <- app_assoc; reflexivity|]. split; [constructor; [reflexivity|exact F]|].
      cbn [List.length]. rewrite N, G3. lia.
    + injection E as <- <-. split; [split; assumption|]. exists []. rewrite app_nil_r. split; [reflexivity|]. split; [constructor|cbn; lia].
Qed.
Lemma checks_spec : forall cs i g l h m, checks i cs g l = (h, m) ->
  same g h /\ g_nLS h = g_nLS g /\ exists e, m = l ++ e /\ solves i e = 0%nat /\ (forall j, solves j e = 0%nat) /\
    kinds e = match g_kind g with KFeas _ oa mx => passes oa mx (g_cuts g) cs | _ => [] end.
Proof.
  induction cs as [|c cs IH]; intros i g l h m E; cbn [checks] in E.
  - injection E as <- <-. split; [split; reflexivity|]. split; [reflexivity|]. exists []. rewrite app_nil_r.
    repeat split. destruct (g_kind g); reflexivity.
  - destruct (g_kind g) eqn:K; try (injection E as <- <-; split; [split; reflexivity|]; split; [reflexivity|]; exists [];
      rewrite app_nil_r; repeat split).
    apply IH in E. destruct E as [[A B] (N & e & -> & S0 & SJ & KS)]. cbn in KS, N.
    split; [split; [rewrite A; unfold settings_of; cbn; rewrite K; reflexivity | exact B]|]. split; [exact N|].
    eexists. split; [rewrite <- app_assoc; reflexivity|]. split; [cbn; exact S0|]. split; [intro j; cbn; exact (SJ j)|].
    cbn [app kinds flat_map passes]. fold (kinds e). rewrite KS. reflexivity.
Qed.
Lemma solves_all : forall i e, Forall (fun x => x = Solved i) e -> solves i e = List.length e.
Proof.
  induction e as [|x e IH]; intro F; [reflexivity|]. pose proof (Forall_inv F) as ->. unfold solves in *. cbn [filter].
  rewrite Nat.eqb_refl. cbn [List.length]. rewrite IH by exact (Forall_inv_tail F). reflexivity.
Qed.
Lemma solves_none : forall i j e, i <> j -> Forall (fun x => x = Solved i) e -> solves j e = 0%nat.
Proof.
  induction e as [|x e IH]; intros N F; [reflexivity|]. pose proof (Forall_inv F) as ->. unfold solves in *. cbn [filter].
  destruct (Nat.eqb_spec j i); [congruence|]. apply IH; [exact N|exact (Forall_inv_tail F)].
Qed.
Lemma perform_spec : forall i rs cs g l h m, perform i rs cs g l = (h, m) ->
  same g h /\ exists e, m = l ++ e /\ g_nLS h = (g_nLS g + solves i e)%nat /\ (forall j, i <> j -> solves j e = 0%nat) /\
    kinds e = match g_kind g with KFeas _ oa mx => passes oa mx (g_cuts g) cs | _ => [] end.
Proof.
  intros i rs cs g l h m E. unfold perform in E.
  assert (R : forall k, g_kind g = k -> (match k with KFeas _ _ _ => False | KEcp _ _ _ _ => False | _ => True end) ->
    rounds i rs (mkGen (g_par g) k (g_leave g) (g_reassign g) (S (g_nLS g)) (g_sols g) (g_begin g) (g_cuts g)) (l ++ [Solved i]) = (h, m) ->
    same g h /\ exists e, m = l ++ e /\ g_nLS h = (g_nLS g + solves i e)%nat /\ (forall j, i <> j -> solves j e = 0%nat) /\ kinds e = []).
  { intros k K _ EE. apply rounds_spec in EE. destruct EE as [[A B] (e & -> & F & N)]. cbn in N.
    split; [split; [rewrite A; unfold settings_of; cbn; rewrite K; reflexivity | exact B]|].
    exists (Solved i :: e). split; [rewrite <- app_assoc; reflexivity|].
    assert (F1 : Forall (fun x => x = Solved i) (Solved i :: e)) by (constructor; [reflexivity|exact F]).
    split; [rewrite (solves_all _ _ F1); cbn [List.length]; lia|]. split; [intros j NJ; exact (solves_none _ _ _ NJ F1)|].
    clear -F1. induction (Solved i :: e) as [|x y IH]; [reflexivity|]. pose proof (Forall_inv F1) as ->. cbn. apply IH. exact (Forall_inv_tail F1). }
  destruct (g_kind g) eqn:K.
  - exact (R _ eq_refl I E).
  - exact (R _ eq_refl I E).
  - apply checks_spec in E. destruct E as [A (N & e & -> & S0 & SJ & KS)]. split; [exact A|]. exists e. split; [reflexivity|].
    split; [lia|]. split; [intros j _; apply SJ|]. rewrite K in KS. exact KS.
  - injection E as <- <-. split; [split; reflexivity|]. exists []. rewrite app_nil_r. repeat split. cbn. lia.
Qed.

(** A round of one generator. *)
Lemma gen_spec : forall i n int rs cs w w', step (Gen i n int rs cs) w = Ok w' ->
  exists g h a e, nth_error (w_gens w) i = Some g /\ w' = mkWorld (w_now w) (setnth i h (w_gens w)) (w_log w ++ a ++ e) /\
    same g h /\ g_nLS h = (g_nLS g + solves i e)%nat /\ (forall j, i <> j -> solves j e = 0%nat) /\
    (let q := ask (w_now w) (mkGen (g_par g) (g_kind g) (g_leave g) (g_reassign g) (g_nLS g) n (g_begin g) (g_cuts g)) in
     (a = if int then [] else [Asked (w_now w) i q]) /\ (int = false -> q = false -> e = []) /\
     (int = true -> kinds e = match g_kind g with KFeas _ oa mx => passes oa mx (g_cuts g) cs | _ => [] end)).
Proof.
  intros i n int rs cs w w' E. cbn [step] in E.
  destruct (nth_error (w_gens w) i) as [g|] eqn:G; [|discriminate E]. cbn [g_par g_kind g_leave g_reassign g_nLS g_begin g_cuts] in E.
  set (g1 := mkGen (g_par g) (g_kind g) (g_leave g) (g_reassign g) (g_nLS g) n (g_begin g) (g_cuts g)) in *.
  set (q := ask (w_now w) g1) in *.
  destruct (int || q) eqn:B.
  - destruct (perform i rs cs g1 _) as [h m] eqn:P. injection E as <-. apply perform_spec in P.
    destruct P as [[A1 A2] (e & -> & N & SJ & KS)].
    exists g, h, (if int then [] else [Asked (w_now w) i q]), e. split; [reflexivity|].
    split; [destruct int; cbn [app]; rewrite <- ?app_assoc; reflexivity|].
    split; [split; [exact A1|exact A2]|]. split; [exact N|]. split; [exact SJ|]. cbv zeta. fold g1 q. split; [reflexivity|].
    split; [intros -> Q0; rewrite Q0 in B; discriminate B | intros _; exact KS].
  - injection E as <-. apply orb_false_iff in B. destruct B as [-> B].
    exists g, g1, [Asked (w_now w) i q], []. split; [reflexivity|]. split; [reflexivity|]. split; [split; reflexivity|].
    split; [cbn; lia|]. split; [reflexivity|]. cbv zeta. fold g1 q. split; [reflexivity|]. split; [reflexivity | intro X; discriminate X].
Qed.

Lemma run_given : forall h w w' acc, run h w = Ok w' -> map settings_of (w_gens w) = acc -> map settings_of (w_gens w') = given acc h.
Proof.
  induction h as [|e h IH]; intros w w' acc R A; cbn [run] in R; [injection R as <-; exact A|].
  apply bind_ok in R. destruct R as (w1 & E & R).
  destruct e as [d|p k lv ra|i|i n int rs cs]; cbn [given]; apply (IH w1 w' _ R); clear IH R.
  - injection E as <-. exact A.
  - injection E as <-. cbn [w_gens]. rewrite map_app, A. reflexivity.
  - cbn [step] in E. destruct (nth_error (w_gens w) i) as [g|] eqn:G; [|discriminate E]. injection E as <-. cbn [w_gens].
    rewrite <- A, nth_error_map, G. cbn [option_map]. rewrite map_app. cbn [map].
    unfold settings_of at 2. unfold gen_copy. cbn. rewrite pars_copy_id, kind_copy_id. reflexivity.
  - apply gen_spec in E. destruct E as (g & h1 & a & e & G & -> & [S1 _] & _). cbn [w_gens].
    rewrite setnth_map, S1, <- A. apply setnth_id. rewrite nth_error_map, G. reflexivity.
Qed.

Definition inv (w : world) (B : list Q) : Prop :=
  List.length (w_gens w) = List.length B /\
  (forall i g, nth_error (w_gens w) i = Some g -> nth_error B i = Some (g_begin g) /\ g_nLS g = solves i (w_log w)) /\
  (forall i, (List.length (w_gens w) <= i)%nat -> solves i (w_log w) = 0%nat).
Lemma solves_asked : forall j a e (int : bool) t i q, a = (if int then [] else [Asked t i q]) -> solves j (a ++ e) = solves j e.
Proof. intros j a e int t i q ->. destruct int; reflexivity. Qed.
Lemma inv_run : forall h w w' B, run h w = Ok w' -> inv w B -> inv w' (B ++ births (w_now w) h) /\ w_now w' = clock (w_now w) h.
Proof.
  induction h as [|e h IH]; intros w w' B R V; cbn [run] in R.
  - injection R as <-. cbn [births clock]. rewrite app_nil_r. split; [exact V|reflexivity].
  - apply bind_ok in R. destruct R as (w1 & E & R). destruct V as (L & H & Z).
    assert (ADD : forall g, g_begin g = w_now w -> g_nLS g = 0%nat ->
      inv (mkWorld (w_now w) (w_gens w ++ [g]) (w_log w)) (B ++ [w_now w])).
    { intros g GB GN. split; [cbn [w_gens]; rewrite !app_length, L; reflexivity|]. split.
      - intros j x X. cbn [w_gens w_log] in *. destruct (Nat.lt_ge_cases j (List.length (w_gens w))) as [LT|GE].
        + rewrite nth_error_app1 in X by exact LT. rewrite nth_error_app1 by lia. exact (H j x X).
        + rewrite nth_error_app2 in X by exact GE. destruct (j - List.length (w_gens w))%nat as [|d] eqn:D; [|destruct d; discriminate X].
          injection X as <-. assert (j = List.length B) by lia. subst j.
          rewrite nth_error_app2 by lia. rewrite Nat.sub_diag. split; [cbn; congruence|]. rewrite GN, Z by exact GE. reflexivity.
      - intros j J. cbn [w_gens w_log] in *. rewrite app_length in J. apply Z. lia. }
    destruct e as [d|p k lv ra|i|i n int rs cs].
    + injection E as <-. apply (IH _ _ B) in R; [exact R|]. split; [exact L|]. split; [exact H|exact Z].
    + injection E as <-. apply (IH _ _ (B ++ [w_now w])) in R.
      * destruct R as [R C]. cbn [births clock]. rewrite <- app_assoc in R. split; [exact R|exact C].
      * apply ADD; reflexivity.
    + cbn [step] in E. destruct (nth_error (w_gens w) i) as [g|]; [|discriminate E]. injection E as <-.
      apply (IH _ _ (B ++ [w_now w])) in R.
      * destruct R as [R C]. cbn [births clock]. rewrite <- app_assoc in R. split; [exact R|exact C].
      * apply ADD; reflexivity.
    + apply gen_spec in E. destruct E as (g & h1 & a & e & G & -> & [S1 S2] & N & SJ & Q0). cbv zeta in Q0. destruct Q0 as (QA & _).
      apply (IH _ _ B) in R; [exact R|]. split; [cbn [w_gens]; rewrite setnth_len; exact L|]. split.
      * intros j x X. cbn [w_gens w_log] in *. rewrite solves_app, (solves_asked _ _ _ _ _ _ _ QA).
        destruct (Nat.eq_dec i j) as [<-|NE].
        -- rewrite setnth_same in X by exact (nth_lt _ _ _ _ G). injection X as <-. destruct (H i g G) as [H1 H2].
           rewrite S2, N, H2. split; [exact H1|reflexivity].
        -- rewrite setnth_other in X by exact NE. destruct (H j x X) as [H1 H2]. rewrite (SJ j NE), Nat.add_0_r. split; assumption.
      * intros j J. cbn [w_gens w_log] in *. rewrite setnth_len in J. rewrite solves_app, (solves_asked _ _ _ _ _ _ _ QA), (Z j J).
        rewrite SJ; [reflexivity|]. apply nth_lt in G. lia.
Qed.
Lemma inv0 : inv world0 [].
Proof. split; [reflexivity|]. split; [intros [|i] g X; discriminate X|reflexivity]. Qed.
Lemma run_app : forall h k w w', run (h ++ k) w = Ok w' -> exists v, run h w = Ok v /\ run k v = Ok w'.
Proof.
  induction h as [|e h IH]; intros k w w' R; [exists w; split; [reflexivity|exact R]|]. cbn [app run] in *.
  apply bind_ok in R. destruct R as (w1 & E & R). destruct (IH _ _ _ R) as (v & A & B). exists v. rewrite E. split; assumption.
Qed.

(** Limits on a search. *)
Lemma rounds_bound : forall rs i g l, (solves i (snd (rounds i rs g l)) <= solves i l + (p_maxLS (g_par g) - g_nLS g))%nat /\
  forall r s, rs = r ++ s -> r <> [] -> (p_maxSols (g_par g) <= g_sols g + found r)%nat ->
    (solves i (snd (rounds i rs g l)) <= solves i l + (List.length r - 1))%nat.
Proof.
  induction rs as [|b rs IH]; intros i g l.
  - cbn [rounds snd]. split; [lia|]. intros r s _ _ _. lia.
  - cbn [rounds]. set (g1 := if b then _ else g).
    assert (G1 : g_nLS g1 = g_nLS g /\ g_par g1 = g_par g /\ g_sols g1 = (g_sols g + if b then 1 else 0)%nat)
      by (unfold g1; destruct b; cbn; repeat split; lia).
    destruct G1 as (N1 & P1 & S1).
    destruct (_ && _) eqn:C.
    + apply andb_true_iff in C. rewrite !Nat.ltb_lt, N1, P1, S1 in C. destruct C as [C1 C2].
      specialize (IH i (mkGen (g_par g1) (g_kind g1) (g_leave g1) (g_reassign g1) (S (g_nLS g1)) (g_sols g1) (g_begin g1) (g_cuts g1)) (l ++ [Solved i])).
      cbn [g_par g_nLS g_sols] in IH. rewrite solves_app in IH.
      assert (P2 : p_maxLS (g_par g1) = p_maxLS (g_par g)) by (rewrite P1; reflexivity).
      assert (P3 : p_maxSols (g_par g1) = p_maxSols (g_par g)) by (rewrite P1; reflexivity).
      assert (ONE : solves i [Solved i] = 1%nat) by (unfold solves; cbn; rewrite Nat.eqb_refl; reflexivity). rewrite ONE in IH.
      destruct IH as [A B]. split; [lia|].
      intros [|x r] s E NE H; [congruence|]. cbn in E. injection E as <- E. cbn [List.length]. destruct r as [|y r].
      * exfalso. unfold found in H. cbn in H. destruct b; cbn in H; lia.
      * specialize (B (y :: r) s E ltac:(discriminate)). cbn [List.length] in *.
        assert (F : found (b :: y :: r) = ((if b then 1 else 0) + found (y :: r))%nat) by (unfold found; cbn [filter]; destruct b; reflexivity).
        rewrite F in H. specialize (B ltac:(lia)). lia.
    + cbn [snd]. split; [lia|]. intros; lia.
Qed.

(** Cuts counted. *)
Lemma rounds_cuts : forall rs i g l, g_cuts (fst (rounds i rs g l)) = g_cuts g.
Proof.
  induction rs as [|b rs IH]; intros i g l; [reflexivity|]. cbn [rounds].
  set (g1 := if b then _ else g). assert (G1 : g_cuts g1 = g_cuts g) by (unfold g1; destruct b; reflexivity).
  destruct (_ && _); [rewrite IH|]; exact G1.
Qed.
Lemma checks_cuts : forall cs i g l p oa m, g_kind g = KFeas p oa m -> g_cuts (fst (checks i cs g l)) = (g_cuts g + list_sum cs)%nat.
Proof.
  induction cs as [|c cs IH]; intros i g l p oa m E; [cbn; lia|]. cbn [checks]. rewrite E.
  rewrite (IH _ _ _ p oa m) by reflexivity. change (list_sum (c :: cs)) with (c + list_sum cs)%nat. cbn [g_cuts]. lia.
Qed.
Lemma counts_run : forall h w w' acc, run h w = Ok w' -> map (fun g => (checker (g_kind g), g_cuts g)) (w_gens w) = acc ->
  map (fun g => (checker (g_kind g), g_cuts g)) (w_gens w') = counts acc h.
Proof.
  induction h as [|e h IH]; intros w w' acc R A; cbn [run] in R; [injection R as <-; exact A|].
  apply bind_ok in R. destruct R as (w1 & E & R).
  destruct e as [d|p k lv ra|i|i n int rs cs]; cbn [counts]; apply (IH w1 w' _ R); clear IH R.
  - injection E as <-. exact A.
  - injection E as <-. cbn [w_gens]. rewrite map_app, A. reflexivity.
  - cbn [step] in E. destruct (nth_error (w_gens w) i) as [g|] eqn:G; [|discriminate E]. injection E as <-. cbn [w_gens].
    rewrite <- A, nth_error_map, G. cbn [option_map]. rewrite map_app. cbn [map gen_copy g_kind g_cuts]. rewrite kind_copy_id. reflexivity.
  - pose proof E as E2. apply gen_spec in E2. destruct E2 as (g' & h1 & a & e & G' & W & [S1 _] & _).
    cbn [step] in E. rewrite G' in E. rewrite <- A, nth_error_map, G'. cbn [option_map].
    set (g1 := mkGen (g_par g') (g_kind g') (g_leave g') (g_reassign g') (g_nLS g') n (g_begin g') (g_cuts g')) in E.
    assert (CH : forall l, g_cuts (fst (if int || ask (w_now w) g1 then perform i rs cs g1 l else (g1, l))) =
      if checker (g_kind g') && int then (g_cuts g' + list_sum cs)%nat else g_cuts g').
    { intro l. unfold ask, perform. cbn [g1 g_kind g_cuts g_par g_leave g_reassign g_nLS g_sols g_begin].
      destruct (g_kind g') as [s|s b|p oa m|] eqn:KK; cbn [checker andb];
        [destruct (_ || _); [rewrite rounds_cuts; reflexivity|reflexivity] | destruct (_ || _); [rewrite rounds_cuts; reflexivity|reflexivity] | |
         destruct (_ || _); reflexivity].
      rewrite orb_false_r. destruct int; [|reflexivity]. unfold g1. rewrite (checks_cuts _ _ _ _ p oa m) by reflexivity. reflexivity. }
    match type of E with (let '(_, _) := ?X in _) = _ => specialize (CH (if int then w_log w else w_log w ++ [Asked (w_now w) i (ask (w_now w) g1)])); destruct X as [h2 l2] end.
    cbn [fst] in CH. subst w1. injection E as E1 E2. cbn [w_gens]. rewrite <- E1. rewrite setnth_map.
    assert (HH : h1 = h2).
    { pose proof (f_equal (fun l => nth_error l i) E1) as EQ. cbv beta in EQ. rewrite !setnth_same in EQ by exact (nth_lt _ _ _ _ G'). congruence. }
    subst h2. unfold settings_of in S1. injection S1 as _ SK _ _. rewrite CH, SK.
    destruct (checker (g_kind g')) eqn:C; destruct int; cbn [andb]; try (apply setnth_id; rewrite nth_error_map, G'; cbn; rewrite C; reflexivity).
    rewrite setnth_upd. reflexivity.
Qed.

(** ** Heuristics *)
Lemma nth_ext : forall A (l k : list A), (forall i, nth_error l i = nth_error k i) -> l = k.
Proof.
  induction l as [|a l IH]; intros [|b k] H; [reflexivity | discriminate (H 0%nat) | discriminate (H 0%nat)|].
  pose proof (H 0%nat) as H0. injection H0 as ->. f_equal. apply IH. intro i. exact (H (S i)).
Qed.
Definition K (w : hworld) : Prop :=
  (forall i o, nth_error (hw_obj w) i = Some (Some o) -> exists p b, h_mip o = Some p /\ nth_error (hw_mem w) p = Some (Some b)) /\
  (forall i j o r p, nth_error (hw_obj w) i = Some (Some o) -> nth_error (hw_obj w) j = Some (Some r) ->
     h_mip o = Some p -> h_mip r = Some p -> i = j) /\
  (forall p b, nth_error (hw_mem w) p = Some (Some b) -> exists i o, nth_error (hw_obj w) i = Some (Some o) /\ h_mip o = Some p).

Lemma K_sound : forall w, K w -> sound w.
Proof.
  intros w (K1 & K2 & K3). split.
  - intro p. split.
    + intros [b B]. destruct (K3 p b B) as (i & [s z q] & O & M). cbn in M. subst q. exists i, s, z. exact O.
    + intros (i & s & z & O). destruct (K1 i _ O) as (p' & b & M & B). cbn in M. injection M as <-. exists b. exact B.
  - intros i j p (s & z & O) (s' & z' & O'). apply (K2 i j _ _ p O O'); reflexivity.
Qed.

Lemma nth_snoc : forall A (l : list A) a i x, nth_error (l ++ [a]) i = Some x ->
  (i < List.length l)%nat /\ nth_error l i = Some x \/ i = List.length l /\ x = a.
Proof.
  intros A l a i x E. destruct (Nat.lt_ge_cases i (List.length l)) as [L|G].
  - left. rewrite nth_error_app1 in E by exact L. split; assumption.
  - right. rewrite nth_error_app2 in E by exact G. destruct (i - List.length l)%nat as [|d] eqn:D; [|destruct d; discriminate E].
    injection E as <-. split; [lia|reflexivity].
Qed.
Lemma nth_last : forall A (l : list A) a, nth_error (l ++ [a]) (List.length l) = Some a.
Proof. intros. rewrite nth_error_app2 by lia. rewrite Nat.sub_diag. reflexivity. Qed.
Lemma nth_keep : forall A (l : list A) a i x, nth_error l i = Some x -> nth_error (l ++ [a]) i = Some x.
Proof. intros A l a i x E. rewrite nth_error_app1 by exact (nth_lt _ _ _ _ E). exact E. Qed.

(** A new heuristic with a new sub-MIP. *)
Lemma K_add : forall w s z b, K w ->
  let w' := mkHw (hw_obj w ++ [Some (mkHeur s z (Some (List.length (hw_mem w))))]) (hw_mem w ++ [Some b]) in
  K w' /\ map (does w') (hw_obj w') = map (does w) (hw_obj w) ++ [Some (z, b)].
Proof.
  intros w s z b (K1 & K2 & K3) w'. split; [split; [|split]|].
  - intros i o O. cbn in O. apply nth_snoc in O. destruct O as [[L O]|[-> O]].
    + destruct (K1 i o O) as (p & c & M & B). exists p, c. split; [exact M|apply nth_keep; exact B].
    + injection O as ->. exists (List.length (hw_mem w)), b. split; [reflexivity|apply nth_last].
  - intros i j o r p O R MO MR. cbn in O, R. apply nth_snoc in O. apply nth_snoc in R.
    assert (OLD : forall k x, nth_error (hw_obj w) k = Some (Some x) -> h_mip x = Some p -> (p < List.length (hw_mem w))%nat).
    { intros k x X MX. destruct (K1 k x X) as (p' & c & M & B). assert (p' = p) by congruence. subst. exact (nth_lt _ _ _ _ B). }
    destruct O as [[LO O]|[-> O]]; destruct R as [[LR R]|[-> R]].
    + exact (K2 i j o r p O R MO MR).
    + injection R as ->. cbn in MR. injection MR as <-. pose proof (OLD _ _ O MO). lia.
    + injection O as ->. cbn in MO. injection MO as <-. pose proof (OLD _ _ R MR). lia.
    + reflexivity.
  - intros p c B. cbn in B. apply nth_snoc in B. destruct B as [[L B]|[-> B]].
    + destruct (K3 p c B) as (i & o & O & M). exists i, o. split; [apply nth_keep; exact O|exact M].
    + eexists; eexists. split; [apply nth_last|reflexivity].
  - cbn [hw_obj w']. rewrite map_app. cbn [map]. f_equal.
    + apply nth_ext. intro i. rewrite !nth_error_map. destruct (nth_error (hw_obj w) i) as [[o|]|] eqn:O; cbn [option_map]; try reflexivity.
      destruct (K1 i o O) as (p & c & M & B). unfold does. cbn [hw_mem w']. rewrite M, B, (nth_keep _ _ _ _ _ B). reflexivity.
    + unfold does. cbn [h_mip hw_mem w' h_often]. rewrite nth_last. reflexivity.
Qed.

(** The sub-MIP of a heuristic released. *)
Lemma K_del : forall w i o p, K w -> nth_error (hw_obj w) i = Some (Some o) -> h_mip o = Some p ->
  mem_del (hw_mem w) (h_mip o) = Ok (setnth p None (hw_mem w)) /\
  (forall j r q, nth_error (hw_obj w) j = Some (Some r) -> h_mip r = Some q -> j <> i ->
     nth_error (setnth p None (hw_mem w)) q = nth_error (hw_mem w) q).
Proof.
  intros w i o p (K1 & K2 & K3) O M. rewrite M. split.
  - cbn [mem_del]. unfold mem_get. destruct (K1 i o O) as (p' & b & M' & B). assert (p' = p) by congruence. subst p'. rewrite B. reflexivity.
  - intros j r q R MR N. apply setnth_other. intro E. subst q. apply N. exact (K2 j i r o p R O MR M).
Qed.
Lemma K_gone : forall w i o p, K w -> nth_error (hw_obj w) i = Some (Some o) -> h_mip o = Some p ->
  let w' := mkHw (setnth i None (hw_obj w)) (setnth p None (hw_mem w)) in
  K w' /\ map (does w') (hw_obj w') = setnth i None (map (does w) (hw_obj w)).
Proof.
  intros w i o p KW O M w'. destruct (K_del _ _ _ _ KW O M) as [_ SAME]. destruct KW as (K1 & K2 & K3).
  assert (OBJ : forall j r, nth_error (hw_obj w') j = Some (Some r) -> j <> i /\ nth_error (hw_obj w) j = Some (Some r)).
  { intros j r R. cbn in R. destruct (Nat.eq_dec i j) as [<-|N].
    - rewrite setnth_same in R by exact (nth_lt _ _ _ _ O). discriminate R.
    - rewrite setnth_other in R by exact N. split; [congruence|exact R]. }
  split; [split; [|split]|].
  - intros j r R. apply OBJ in R. destruct R as [N R]. destruct (K1 j r R) as (q & b & MQ & B). exists q, b. split; [exact MQ|].
    cbn. rewrite (SAME j r q R MQ N). exact B.
  - intros j k r t q R T MR MT. apply OBJ in R. apply OBJ in T. exact (K2 j k r t q (proj2 R) (proj2 T) MR MT).
  - intros q b B. cbn in B. destruct (Nat.eq_dec p q) as [<-|N].
    + destruct (Nat.lt_ge_cases p (List.length (hw_mem w))) as [L|G].
      * rewrite setnth_same in B by exact L. discriminate B.
      * apply nth_lt in B. rewrite setnth_len in B. lia.
    + rewrite setnth_other in B by exact N. destruct (K3 q b B) as (j & r & R & MR). exists j, r. split; [|exact MR].
      cbn. rewrite setnth_other; [exact R|]. intro E. subst j. assert (r = o) by congruence. subst r. congruence.
  - cbn [hw_obj w']. rewrite setnth_map. apply nth_ext. intro j.
    destruct (Nat.eq_dec i j) as [<-|N].
    + rewrite !setnth_same by (rewrite map_length; exact (nth_lt _ _ _ _ O)). reflexivity.
    + rewrite !setnth_other by exact N. rewrite !nth_error_map. destruct (nth_error (hw_obj w) j) as [[r|]|] eqn:R; cbn [option_map]; try reflexivity.
      destruct (K1 j r R) as (q & b & MQ & B). unfold does. rewrite MQ. cbn [hw_mem w']. rewrite (SAME j r q R MQ) by congruence. reflexivity.
Qed.
(** The sub-MIP of a heuristic replaced. *)
Lemma K_swap : forall w i o p s z b, K w -> nth_error (hw_obj w) i = Some (Some o) -> h_mip o = Some p ->
  let m := setnth p None (hw_mem w) in
  let w' := mkHw (setnth i (Some (mkHeur s z (Some (List.length m)))) (hw_obj w)) (m ++ [Some b]) in
  K w' /\ map (does w') (hw_obj w') = setnth i (Some (z, b)) (map (does w) (hw_obj w)).
Proof.
  intros w i o p s z b KW O M m w'. destruct (K_del _ _ _ _ KW O M) as [_ SAME]. fold m in SAME. destruct KW as (K1 & K2 & K3).
  pose proof (nth_lt _ _ _ _ O) as LI.
  assert (LM : List.length m = List.length (hw_mem w)) by apply setnth_len.
  assert (OBJ : forall j r, nth_error (hw_obj w') j = Some (Some r) ->
    j <> i /\ nth_error (hw_obj w) j = Some (Some r) \/ j = i /\ r = mkHeur s z (Some (List.length m))).
  { intros j r R. cbn in R. destruct (Nat.eq_dec i j) as [<-|N].
    - rewrite setnth_same in R by exact LI. injection R as <-. right. split; reflexivity.
    - rewrite setnth_other in R by exact N. left. split; [congruence|exact R]. }
  assert (OLD : forall k x q, nth_error (hw_obj w) k = Some (Some x) -> h_mip x = Some q -> (q < List.length m)%nat).
  { intros k x q X MX. destruct (K1 k x X) as (p' & c & MM & B). assert (p' = q) by congruence. subst. rewrite LM. exact (nth_lt _ _ _ _ B). }
  split; [split; [|split]|].
  - intros j r R. apply OBJ in R. destruct R as [[N R]|[-> ->]].
    + destruct (K1 j r R) as (q & c & MQ & B). exists q, c. split; [exact MQ|]. cbn. apply nth_keep. rewrite (SAME j r q R MQ N). exact B.
    + exists (List.length m), b. split; [reflexivity|]. cbn. apply nth_last.
  - intros j k r t q R T MR MT. apply OBJ in R. apply OBJ in T. destruct R as [[N R]|[-> ->]]; destruct T as [[N' T]|[-> ->]].
    + exact (K2 j k r t q R T MR MT).
    + cbn in MT. injection MT as <-. pose proof (OLD _ _ _ R MR). lia.
    + cbn in MR. injection MR as <-. pose proof (OLD _ _ _ T MT). lia.
    + reflexivity.
  - intros q c B. cbn in B. apply nth_snoc in B. destruct B as [[L B]|[-> B]].
    + destruct (Nat.eq_dec p q) as [<-|N].
      * unfold m in B. rewrite setnth_same in B by lia. discriminate B.
      * unfold m in B. rewrite setnth_other in B by exact N. destruct (K3 q c B) as (j & r & R & MR). exists j, r. split; [|exact MR].
        cbn. rewrite setnth_other; [exact R|]. intro E. subst j. assert (r = o) by congruence. subst r. congruence.
    + eexists; eexists. split; [cbn; apply setnth_same; exact LI|reflexivity].
  - cbn [hw_obj w']. rewrite setnth_map. apply nth_ext. intro j.
    destruct (Nat.eq_dec i j) as [<-|N].
    + rewrite !setnth_same by (rewrite map_length; exact LI). unfold does. cbn [h_mip hw_mem w' h_often]. rewrite nth_last. reflexivity.
    + rewrite !setnth_other by exact N. rewrite !nth_error_map. destruct (nth_error (hw_obj w) j) as [[r|]|] eqn:R; cbn [option_map]; try reflexivity.
      destruct (K1 j r R) as (q & c & MQ & B). unfold does. rewrite MQ. cbn [hw_mem w'].
      pose proof (SAME j r q R MQ ltac:(congruence)) as SM. rewrite B in SM. rewrite (nth_keep _ _ _ _ _ SM), B. reflexivity.
Qed.
(** The frequency changed. *)
Lemma K_often : forall w i o p b s z, K w -> nth_error (hw_obj w) i = Some (Some o) -> h_mip o = Some p ->
  nth_error (hw_mem w) p = Some (Some b) ->
  let w' := mkHw (setnth i (Some (mkHeur s z (Some p))) (hw_obj w)) (hw_mem w) in
  K w' /\ map (does w') (hw_obj w') = setnth i (Some (z, b)) (map (does w) (hw_obj w)).
Proof.
  intros w i o p b s z (K1 & K2 & K3) O M B0 w'. pose proof (nth_lt _ _ _ _ O) as LI.
  assert (OBJ : forall j r, nth_error (hw_obj w') j = Some (Some r) ->
    exists r', nth_error (hw_obj w) j = Some (Some r') /\ h_mip r = h_mip r').
  { intros j r R. cbn in R. destruct (Nat.eq_dec i j) as [<-|N].
    - rewrite setnth_same in R by exact LI. injection R as <-. exists o. split; [exact O|]. rewrite M. reflexivity.
    - rewrite setnth_other in R by exact N. exists r. split; [exact R|reflexivity]. }
  split; [split; [|split]|].
  - intros j r R. apply OBJ in R. destruct R as (r' & R & E). destruct (K1 j r' R) as (q & c & MQ & B). exists q, c. split; [congruence|exact B].
  - intros j k r t q R T MR MT. apply OBJ in R. apply OBJ in T. destruct R as (r' & R & E). destruct T as (t' & T & F).
    apply (K2 j k r' t' q R T); congruence.
  - intros q c B. destruct (K3 q c B) as (j & r & R & MR). destruct (Nat.eq_dec i j) as [<-|N].
    + exists i. eexists. split; [cbn; apply setnth_same; exact LI|]. cbn. congruence.
    + exists j, r. split; [cbn; rewrite setnth_other by exact N; exact R|exact MR].
  - cbn [hw_obj w']. rewrite setnth_map. unfold does at 1. cbn [h_mip hw_mem w' h_often]. rewrite B0. reflexivity.
Qed.

Definition D (w : hworld) (n : nat) (dead : list nat) : Prop :=
  List.length (hw_obj w) = n /\ forall i, (i < n)%nat -> ~ In i dead -> exists o, nth_error (hw_obj w) i = Some (Some o).
Lemma D_set : forall objs mem mem' n dead i o, D (mkHw objs mem) n dead -> D (mkHw (setnth i (Some o) objs) mem') n dead.
Proof.
  intros objs mem mem' n dead i o [L H]. cbn in L. split; [cbn; rewrite setnth_len; exact L|]. intros j J N. cbn in *.
  destruct (Nat.eq_dec i j) as [<-|NE]; [eexists; apply setnth_same; lia|]. rewrite setnth_other by exact NE. exact (H j J N).
Qed.
Lemma D_add : forall objs mem mem' n dead o, D (mkHw objs mem) n dead -> D (mkHw (objs ++ [Some o]) mem') (S n) dead.
Proof.
  intros objs mem mem' n dead o [L H]. cbn in L. split; [cbn; rewrite app_length; cbn; lia|]. intros j J N. cbn in *.
  destruct (Nat.eq_dec j n) as [->|NE]; [rewrite <- L; eexists; apply nth_last|].
  destruct (H j ltac:(lia) N) as [x X]. exists x. apply nth_keep. exact X.
Qed.

Lemma does_at : forall w i o p b, nth_error (hw_obj w) i = Some (Some o) -> h_mip o = Some p -> nth_error (hw_mem w) p = Some (Some b) ->
  nth_error (map (does w) (hw_obj w)) i = Some (Some (h_often o, b)).
Proof. intros w i o p b O M B. rewrite nth_error_map, O. cbn [option_map]. unfold does. rewrite M, B. reflexivity. Qed.

Lemma hrun_safe : forall f z h w n dead, alive (can f) n dead h -> inits_succeed (can f) h -> K w -> D w n dead ->
  exists w', hrun f z h w = Ok w' /\ K w' /\ map (does w') (hw_obj w') = plan f z (map (does w) (hw_obj w)) h.
Proof.
  induction h as [|e h IH]; intros w n dead A I KW DW.
  - exists w. split; [reflexivity|]. split; [exact KW|reflexivity].
  - assert (I' : inits_succeed (can f) h) by (intros i s X; apply (I i s); right; exact X).
    assert (GET : forall i, (i < n)%nat -> ~ In i dead -> exists o p b, nth_error (hw_obj w) i = Some (Some o) /\ h_mip o = Some p /\
      nth_error (hw_mem w) p = Some (Some b)).
    { intros i L N. destruct (proj2 DW i L N) as [o O]. destruct (proj1 KW i o O) as (p & b & M & B). exists o, p, b. auto. }
    destruct e as [s|i s|i y|i|i j|i]; cbn [alive] in A; cbn [hrun plan hstep].
    + unfold can in A. destruct (f s) as [b|] eqn:F.
      * cbn [bind]. destruct (K_add w s z b KW) as [KA MA].
        destruct (IH _ _ _ A I' KA ltac:(destruct w; eapply D_add; exact DW)) as (w' & R & K' & M'). exists w'.
        split; [exact R|]. split; [exact K'|]. rewrite M', MA. reflexivity.
      * cbn [bind]. rewrite app_nil_r. exact (IH _ _ _ A I' KW DW).
    + destruct A as [[LI NI] A]. destruct (GET i LI NI) as (o & p & b & O & M & B).
      pose proof (I i s (or_introl eq_refl)) as FS. unfold can in FS. destruct (f s) as [c|] eqn:F; [|discriminate FS].
      unfold obj_get. rewrite O. cbn [bind]. rewrite (proj1 (K_del _ _ _ _ KW O M)). cbn [bind].
      destruct (K_swap w i o p (h_setup o) (h_often o) c KW O M) as [KA MA].
      destruct (IH _ _ _ A I' KA ltac:(destruct w; eapply D_set; exact DW)) as (w' & R & K' & M'). exists w'.
      split; [exact R|]. split; [exact K'|]. rewrite M', MA, (does_at _ _ _ _ _ O M B), setnth_upd. reflexivity.
    + destruct A as [[LI NI] A]. destruct (GET i LI NI) as (o & p & b & O & M & B).
      unfold obj_get. rewrite O. cbn [bind]. rewrite M. destruct (K_often w i o p b (h_setup o) y KW O M B) as [KA MA].
      destruct (IH _ _ _ A I' KA ltac:(destruct w; eapply D_set; exact DW)) as (w' & R & K' & M'). exists w'.
      split; [exact R|]. split; [exact K'|]. rewrite M', MA, (does_at _ _ _ _ _ O M B), setnth_upd. reflexivity.
    + destruct A as [[LI NI] A]. destruct (GET i LI NI) as (o & p & b & O & M & B).
      unfold obj_get. rewrite O. cbn [bind]. rewrite M. unfold mem_get. rewrite B. cbn [bind]. rewrite sub_copy_id.
      destruct (K_add w (h_setup o) (h_often o) b KW) as [KA MA].
      destruct (IH _ _ _ A I' KA ltac:(destruct w; eapply D_add; exact DW)) as (w' & R & K' & M'). exists w'.
      split; [exact R|]. split; [exact K'|]. rewrite M', MA, (does_at _ _ _ _ _ O M B). reflexivity.
    + destruct A as [[LI NI] [[LJ NJ] A]]. destruct (GET i LI NI) as (o & p & b & O & M & B).
      destruct (GET j LJ NJ) as (r & q & c & R0 & MR & C).
      unfold obj_get. rewrite O, R0. cbn [bind]. rewrite (does_at _ _ _ _ _ R0 MR C), setnth_upd.
      destruct (Nat.eqb_spec i j) as [E|N].
      * subst j. assert (r = o) by congruence. subst r. assert (q = p) by congruence. subst q. assert (c = b) by congruence. subst c.
        cbn [bind]. rewrite (setnth_id _ _ _ _ (does_at _ _ _ _ _ O M B)). exact (IH _ _ _ A I' KW DW).
      * destruct (K_del _ _ _ _ KW O M) as [KD SM]. rewrite KD. cbn [bind]. rewrite MR. unfold mem_get.
        rewrite (SM j r q R0 MR ltac:(congruence)), C. cbn [bind]. rewrite sub_copy_id.
        destruct (K_swap w i o p (h_setup r) (h_often r) c KW O M) as [KA MA].
        destruct (IH _ _ _ A I' KA ltac:(destruct w; eapply D_set; exact DW)) as (w' & R & K' & M'). exists w'.
        split; [exact R|]. split; [exact K'|]. rewrite M', MA. reflexivity.
    + destruct A as [[LI NI] A]. destruct (GET i LI NI) as (o & p & b & O & M & B).
      unfold obj_get. rewrite O. cbn [bind]. rewrite (proj1 (K_del _ _ _ _ KW O M)). cbn [bind].
      destruct (K_gone w i o p KW O M) as [KA MA].
      assert (DG : D (mkHw (setnth i None (hw_obj w)) (setnth p None (hw_mem w))) n (i :: dead)).
      { split; [cbn; rewrite setnth_len; exact (proj1 DW)|]. intros j J N. cbn in *.
        rewrite setnth_other by (intro E; apply N; left; exact E). apply (proj2 DW j J). intro X. apply N. right. exact X. }
      destruct (IH _ _ _ A I' KA DG) as (w' & R & K' & M'). exists w'.
      split; [exact R|]. split; [exact K'|]. rewrite M', MA, setnth_upd. reflexivity.
Qed.
Lemma K0 : K hworld0.
Proof. split; [|split]; intros; destruct i || destruct p; discriminate. Qed.
Lemma D0 : D hworld0 0 [].
Proof. split; [reflexivity|]. intros i L. lia. Qed.

(** ** Rules *)
Lemma rrun_learnt : forall h w w' acc, rrun h w = Ok w' -> map (fun r => (r_opt r, r_pc r)) (rw_rules w) = acc ->
  map (fun r => (r_opt r, r_pc r)) (rw_rules w') = learnt acc h.
Proof.
  induction h as [|e h IH]; intros w w' acc R A; cbn [rrun] in R; [injection R as <-; exact A|].
  apply bind_ok in R. destruct R as (w1 & E & R).
  destruct e as [d|o l pc|i|i j|i pc]; cbn [learnt]; apply (IH w1 w' _ R); clear IH R; cbn [rstep] in E.
  - injection E as <-. exact A.
  - injection E as <-. cbn [rw_rules]. rewrite map_app, A. reflexivity.
  - destruct (nth_error (rw_rules w) i) as [r|] eqn:G; [|discriminate E]. injection E as <-. cbn [rw_rules].
    rewrite <- A, nth_error_map, G. cbn [option_map]. rewrite map_app. cbn [map rule_copy r_opt r_pc]. rewrite ropts_copy_id. reflexivity.
  - destruct (nth_error (rw_rules w) i) as [t|] eqn:T; [|discriminate E]. destruct (nth_error (rw_rules w) j) as [r|] eqn:G; [|discriminate E].
    rewrite <- A, nth_error_map, G. cbn [option_map]. rewrite setnth_upd. destruct (Nat.eqb_spec i j) as [->|N]; injection E as <-.
    + rewrite (setnth_id _ _ j); [reflexivity|]. rewrite nth_error_map, G. reflexivity.
    + cbn [rw_rules]. rewrite setnth_map. cbn [rule_assign r_opt r_pc]. rewrite ropts_copy_id. reflexivity.
  - destruct (nth_error (rw_rules w) i) as [r|] eqn:G; [|discriminate E]. injection E as <-. cbn [rw_rules].
    rewrite <- A, nth_error_map, G. cbn [option_map]. rewrite setnth_upd, setnth_map. reflexivity.
Qed.
Lemma rrun_limits : forall h w w' acc, rrun h w = Ok w' -> map (fun r => (r_lim r, r_start r)) (rw_rules w) = acc ->
  map (fun r => (r_lim r, r_start r)) (rw_rules w') = limits (rw_now w) acc h.
Proof.
  induction h as [|e h IH]; intros w w' acc R A; cbn [rrun] in R; [injection R as <-; exact A|].
  apply bind_ok in R. destruct R as (w1 & E & R).
  destruct e as [d|o l pc|i|i j|i pc]; cbn [limits]; cbn [rstep] in E.
  - injection E as <-. exact (IH _ _ _ R A).
  - injection E as <-. apply (IH _ _ _ R). cbn [rw_rules]. rewrite map_app, A. reflexivity.
  - destruct (nth_error (rw_rules w) i) as [r|] eqn:G; [|discriminate E]. injection E as <-. apply (IH _ _ _ R). cbn [rw_rules].
    rewrite <- A, nth_error_map, G. cbn [option_map]. rewrite map_app. reflexivity.
  - destruct (nth_error (rw_rules w) i) as [t|] eqn:T; [|discriminate E]. destruct (nth_error (rw_rules w) j) as [r|] eqn:G; [|discriminate E].
    destruct (Nat.eqb_spec i j) as [->|N]; injection E as <-; [exact (IH _ _ _ R A)|]. apply (IH _ _ _ R).
    cbn [rw_rules]. rewrite setnth_map, setnth_id; [exact A|]. rewrite nth_error_map, T. reflexivity.
  - destruct (nth_error (rw_rules w) i) as [r|] eqn:G; [|discriminate E]. injection E as <-. apply (IH _ _ _ R). cbn [rw_rules].
    rewrite setnth_map, setnth_id; [exact A|]. rewrite nth_error_map, G. reflexivity.
Qed.
