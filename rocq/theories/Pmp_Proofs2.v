(** Proofs for the feasibility pump for MINLPs: its objective, its assertions, and the frame of the decomposition methods. *)
From Verif Require Import Base Arr Nlp Oad_Model Pmp_Model Pmp_Spec Pmp_Proofs.
#[local] Open Scope Q_scope.

(** ** The objective *)
Lemma nearest_unique : forall x r, rounds_to x r -> nearest x = r.
Proof.
  intros x r [A B]. unfold nearest. pose proof (Qfloor_le (x + (1 # 2))) as F1. pose proof (Qlt_floor (x + (1 # 2))) as F2.
  set (k := Qfloor (x + (1 # 2))) in *.
  assert (inject_Z k < inject_Z (r + 1)) by (rewrite inject_Z_plus; change (inject_Z 1) with 1; lra).
  assert (inject_Z r < inject_Z (k + 1)) by lra. rewrite <- Zlt_Qlt in *. lia.
Qed.
Lemma nearest_rounds : forall x, rounds_to x (nearest x).
Proof.
  intros x. unfold rounds_to, nearest. pose proof (Qfloor_le (x + (1 # 2))) as F1. pose proof (Qlt_floor (x + (1 # 2))) as F2.
  rewrite inject_Z_plus in F2. change (inject_Z 1) with 1 in F2. split; lra.
Qed.
Lemma dot_cons : forall a b l m, dot (a :: l) (b :: m) == a * b + dot l m.
Proof. intros. unfold dot. cbn [combine map fst snd]. unfold qsum. cbn. lra. Qed.
Lemma dot_nil : forall m, dot [] m == 0.
Proof. intros. reflexivity. Qed.
Lemma at_ints_cons : forall P b ints v z, at_ints P (b :: ints) (v :: z) <-> (b = true -> P v) /\ at_ints P ints z.
Proof.
  intros. unfold at_ints. split.
  - intros H. split. { intros ->. destruct (H 0%nat eq_refl) as (w & E & W). inv E. exact W. } intros i I. exact (H (S i) I).
  - intros [A B] [|i] I; cbn in *; [inv I; eauto|apply B; exact I].
Qed.
Lemma round01 : forall x r, 0 <= x -> x < 1 -> rounds_to x r -> (r = 0 \/ r = 1)%Z.
Proof.
  intros x r A B [C D]. assert (inject_Z (- 1) < inject_Z r) by (change (inject_Z (-1)) with (- (1)); lra).
  assert (inject_Z r < inject_Z 2) by (change (inject_Z 2) with 2; lra). rewrite <- Zlt_Qlt in *. lia.
Qed.
Lemma coeff01 : forall x r, 0 <= x -> x < 1 -> rounds_to x r -> fp_coeff true x == 1 - 2 * inject_Z r /\ (r = 0 \/ r = 1)%Z.
Proof.
  intros x r A B R. pose proof (round01 x r A B R) as Z. split; auto. unfold fp_coeff. rewrite (nearest_unique x r R).
  destruct Z as [-> | ->].
  - change (inject_Z 0) with 0. destruct (Qltb (x - 0) 0) eqn:E; [apply Qltb_lt in E; lra|lra].
  - change (inject_Z 1) with 1. destruct (Qltb (x - 1) 0) eqn:E; [lra|]. apply Qltb_ge in E. lra.
Qed.
(** Number of columns rounded to 1. *)
Fixpoint ones (ints : list bool) (r : list Z) : Q :=
  match ints, r with b :: ints, r0 :: r => (if b : bool then inject_Z r0 else 0) + ones ints r | _, _ => 0 end.
Definition below1 (v : Q) : Prop := 0 <= v /\ v < 1.
Lemma dist_is : forall ints x r obj, rounded_to ints x r -> at_ints below1 ints x -> fp_obj ints x = Ok obj ->
  forall z, length z = length ints -> at_ints is_binary ints z -> dot obj z == l1 ints r z - ones ints r.
Proof.
  induction ints as [|b ints IH]; intros x r obj R X H z L Z.
  - cbn in H. inv H. cbn. reflexivity.
  - destruct x as [|x0 x], r as [|r0 r]; try contradiction. destruct R as [R0 R]. cbn in H. bnd H l E. inv H.
    destruct z as [|z0 z]; [discriminate|]. apply at_ints_cons in X. apply at_ints_cons in Z. destruct X as [X0 X], Z as [Z0 Z].
    rewrite dot_cons, (IH _ _ _ R X E z ltac:(cbn in L; lia) Z). cbn [l1 ones]. destruct b; [|unfold fp_coeff; lra].
    destruct (X0 eq_refl) as [XA XB]. destruct (coeff01 x0 r0 XA XB (R0 eq_refl)) as [C Y]. rewrite C.
    destruct Y as [-> | ->]; destruct (Z0 eq_refl) as [W|W]; rewrite W; cbn -[Qmult Qplus Qminus]; change (inject_Z 0) with 0; change (inject_Z 1) with 1;
      [rewrite Qabs_pos by lra|rewrite Qabs_pos by lra|rewrite Qabs_neg by lra|rewrite Qabs_pos by lra]; lra.
Qed.
Lemma ranks_below : forall ints x r obj, rounded_to ints x r -> at_ints below1 ints x -> fp_obj ints x = Ok obj -> ranks is_binary ints r obj.
Proof.
  intros ints x r obj R X H z z' L L' Z Z'. rewrite (dist_is _ _ _ _ R X H z L Z), (dist_is _ _ _ _ R X H z' L' Z'). split; intros; lra.
Qed.
Lemma zeros_bin : forall ints, length (map (fun _ => 0) ints) = length ints /\ at_ints is_binary ints (map (fun _ => 0) ints).
Proof.
  intros. split; [apply map_length|]. intros i I. exists 0. split; [|left; reflexivity]. rewrite nth_error_map, I. reflexivity.
Qed.
Lemma wrong_way : forall ints x r obj, rounded_to ints x r -> at_ints in01 ints x -> fp_obj ints x = Ok obj ->
  (exists i v, nth_error ints i = Some true /\ nth_error x i = Some v /\ v == 1) ->
  exists z z', length z = length ints /\ length z' = length ints /\ at_ints is_binary ints z /\ at_ints is_binary ints z' /\
    dot obj z < dot obj z' /\ l1 ints r z' < l1 ints r z.
Proof.
  induction ints as [|b ints IH]; intros x r obj R X H (i & v & I & J & V); [destruct i; discriminate|].
  destruct x as [|x0 x], r as [|r0 r]; try contradiction. destruct R as [R0 R]. cbn in H. bnd H l E. inv H.
  apply at_ints_cons in X. destruct X as [X0 X]. destruct (zeros_bin ints) as [ZL ZB]. destruct i as [|i]; cbn in I, J.
  - inv I. inv J. assert (r0 = 1%Z) as ->.
    { destruct (R0 eq_refl) as [A B]. rewrite V in A, B. assert (inject_Z 0 < inject_Z r0) by (change (inject_Z 0) with 0; lra).
      assert (inject_Z r0 < inject_Z 2) by (change (inject_Z 2) with 2; lra). rewrite <- Zlt_Qlt in *. lia. }
    exists (0 :: map (fun _ => 0) ints), (1 :: map (fun _ => 0) ints). cbn [length]. repeat split; try (rewrite ZL; reflexivity).
    + apply at_ints_cons. split; [left; reflexivity|exact ZB].
    + apply at_ints_cons. split; [right; reflexivity|exact ZB].
    + rewrite !dot_cons. unfold fp_coeff. rewrite (nearest_unique v 1 (R0 eq_refl)). change (inject_Z 1) with 1.
      destruct (Qltb (v - 1) 0) eqn:Q; [apply Qltb_lt in Q; lra|]. lra.
    + cbn [l1]. change (inject_Z 1) with 1. change (Qabs (0 - 1)) with 1. change (Qabs (1 - 1)) with 0. lra.
  - destruct (IH x r l R X E ltac:(eauto)) as (z & z' & L & L' & Z & Z' & D & N).
    exists (0 :: z), (0 :: z'). cbn [length]. repeat split; try congruence.
    + apply at_ints_cons. split; [left; reflexivity|exact Z].
    + apply at_ints_cons. split; [left; reflexivity|exact Z'].
    + rewrite !dot_cons. lra.
    + cbn [l1]. lra.
Qed.
Lemma below_or_one : forall ints x, at_ints in01 ints x -> (forall i v, nth_error ints i = Some true -> nth_error x i = Some v -> ~ v == 1) -> at_ints below1 ints x.
Proof. intros ints x X N i I. destruct (X i I) as (v & J & A & B). exists v. split; auto. split; auto. apply Qle_lteq in B. destruct B as [B|B]; auto. exfalso. eapply N; eauto. Qed.

(** ** Assertions *)
Lemma near_abs : forall v i, Qabs (v - inject_Z i) <= 1 # 1000000 -> Qltb (Qabs (v - inject_Z (nearest v))) (1 # 100000) = true.
Proof.
  intros v i H. assert (nearest v = i) as ->. { apply nearest_unique. apply Qabs_Qle_condition in H. unfold rounds_to. split; lra. }
  apply Qltb_lt. lra.
Qed.
Lemma xbar_na : forall sol ints k, (forall i, nth_error ints i = Some true -> exists v, nth_error sol (k + i) = Some v /\ exists j, Qabs (v - inject_Z j) <= 1 # 1000000) ->
  exists l, xbar k ints sol = Ok l.
Proof.
  intros sol. induction ints as [|b ints IH]; intros k H; cbn [xbar]; [eauto|].
  assert (IH' : exists l, xbar (S k) ints sol = Ok l). { apply IH. intros i I. replace (S k + i)%nat with (k + S i)%nat by lia. apply H. exact I. }
  destruct IH' as [l E]. destruct b; [|eauto].
  destruct (H 0%nat eq_refl) as (v & V & j & J). rewrite Nat.add_0_r in V. unfold rd. rewrite V. cbn [bind]. rewrite (near_abs v j J). cbn [chk bind]. rewrite E. cbn [bind]. eauto.
Qed.
Lemma new_cut_below : forall v d, 0 < d -> ~ v == 0 -> Qltb (new_cutoff v d) v = true.
Proof.
  intros v d D N. apply Qltb_lt. unfold new_cutoff. destruct (Qltb 0 v) eqn:E.
  - apply Qltb_lt in E. assert (0 < v * d) by (apply Qmult_lt_0_compat; auto). lra.
  - apply Qltb_ge in E. assert (v < 0). { apply Qle_lteq in E. destruct E; auto. contradiction. }
    assert (0 < (- v) * d) by (apply Qmult_lt_0_compat; lra). lra.
Qed.
Section NoAssert.
Variables (O : orac) (q : par) (ints : list bool) (saved : cols) (c0 : ext) (rows0 : list row).
Hypothesis INC : 0 < q_inc q.
Hypothesis OA : forall y, o_oa O y <> [].
Hypothesis SOL : forall k rows obj cap z o, o_mip O k rows obj cap = (Some z, o) -> at_ints (fun v => exists i, Qabs (v - inject_Z i) <= 1 # 1000000) ints z.
Hypothesis NZ : forall k b v y, o_nlp O k b = (true, v, y) -> ~ v == 0.
Definition near_sol (s : st) : Prop := forall z, s_sol s = Some z -> at_ints (fun v => exists i, Qabs (v - inject_Z i) <= 1 # 1000000) ints z.
Lemma add_na : forall x s, exists s', add_cuts O x s = Ok s'.
Proof. intros. unfold add_cuts. pose proof (OA x). destruct (o_oa O x); [congruence|]. cbn. eauto. Qed.
Lemma fixed_na : forall sol s, vals O q ints c0 s -> fixed_nlp O q ints sol s <> AssertFail.
Proof.
  intros sol s V. unfold fixed_nlp. pose proof (proj1 (fix_na (q_info q) 0 ints sol (q_tol q) (s_bnd s))) as N.
  destruct (fixIntegers _ _ _ _ _ _) as [f| | | | | | | ]; cbn [bind]; try discriminate; try congruence.
  destruct (fst f); [discriminate|].
  assert (K : forall k b op v y, o_nlp O k b = (op, v, y) -> (if (op && ext_ltb (Fin v) (s_cut s))%bool
      then match emin (s_ub s) (Fin v) with
           | Fin u => bind (chk (Qltb (new_cutoff u (q_inc q)) u)) (fun _ => Ok (Normal, true,
              mkSt (s_mip s) (S k) (s_rows s) (s_cs s) b y (Fin (new_cutoff u (q_inc q))) (Fin u) (S (s_sols s)) (s_local s)
                   ((y, v) :: s_found s) (s_mopt s) (s_sol s) (s_pass s)))
           | _ => AssertFail end
      else Ok (Normal, false, mkSt (s_mip s) (S k) (s_rows s) (s_cs s) b y (s_cut s) (s_ub s) (s_sols s) (s_local s) (s_found s) (s_mopt s) (s_sol s) (s_pass s))) <> AssertFail).
  { intros k b op v y E. destruct (op && ext_ltb (Fin v) (s_cut s))%bool eqn:B; [|discriminate]. apply andb_true_iff in B. destruct B as [-> B].
    rewrite (ltb_new _ _ _ B (vals_cut _ _ _ _ s V)). unfold chk. rewrite (new_cut_below v (q_inc q) INC (NZ _ _ _ _ E)). cbn. discriminate. }
  destruct (o_nlp O (s_nlp s) (snd f)) as [[op v] y] eqn:E0. cbn [fst snd]. destruct op.
  - cbn [bind]. apply K. exact E0.
  - pose proof (proj1 (relax_na (q_info q) 0 ints (q_tol q) (snd f))) as N'.
    destruct (relaxIntegers _ _ _ _ _) as [b| | | | | | | ]; cbn [bind]; try discriminate; try congruence.
    destruct (o_nlp O (S (s_nlp s)) b) as [[op v'] y'] eqn:E1. apply (K _ _ _ _ _ E1).
Qed.
Lemma pass_na : forall sol s, vals O q ints c0 s -> at_ints (fun v => exists i, Qabs (v - inject_Z i) <= 1 # 1000000) ints sol -> pump_pass O q ints saved sol s <> AssertFail.
Proof.
  intros sol s V Z. unfold pump_pass. cbv zeta. destruct (xbar_na sol ints 0 Z) as [xb ->]. cbn [bind].
  assert (T : vals O q ints c0 (tick s)) by exact V.
  destruct (Qltb _ _).
  - pose proof (fixed_na sol (tick s) T) as FN. destruct (fixed_nlp O q ints sol (tick s)) as [[[e t] s2]| | | | | | | ]; cbn [bind]; try discriminate; try congruence.
    destruct e; cbn [bind]; [|discriminate]. destruct (add_na (s_x s2) s2) as [s3 ->]. cbn [bind].
    destruct (o_late _ _); [discriminate|]. destruct (_ && _)%bool; [|discriminate].
    match goal with |- context [sub_mip O ints ?u] => pose proof (proj1 (sub_mip_na O ints u)) as SN; destruct (sub_mip O ints u); cbn; congruence end.
  - match goal with |- context [add_cuts O ?y ?u] => destruct (add_na y u) as [s3 ->] end. cbn [bind].
    destruct (o_late _ _); [discriminate|]. destruct (_ && _)%bool; [|discriminate].
    match goal with |- context [sub_mip O ints ?u] => pose proof (proj1 (sub_mip_na O ints u)) as SN; destruct (sub_mip O ints u); cbn; congruence end.
Qed.
Lemma loop_na : forall fuel s, vals O q ints c0 s -> rows_ok O rows0 s -> s_bnd s = saved -> near_sol s -> pump_loop fuel O q ints saved s <> AssertFail.
Proof.
  induction fuel; intros s V R B Z; cbn; destruct (s_sol s) as [sol|] eqn:E; try discriminate.
  pose proof (pass_na sol s V (Z sol E)) as N. destruct (pump_pass O q ints saved sol s) as [[e s1]| | | | | | | ] eqn:Ep; cbn [bind fst snd]; try discriminate; try congruence.
  destruct e; [|discriminate]. destruct (pass_ok _ _ _ _ _ _ _ _ _ _ Ep V R B) as [V1 P]. destruct (P eq_refl) as (R1 & B1 & W1 & L1).
  apply IHfuel; auto. intros z Y. destruct (L1 ltac:(congruence)) as (_ & _ & k & rows & ob & cap & o & M). rewrite Y in M. eapply SOL; eauto.
Qed.
End NoAssert.
Theorem pump_na : forall O q hascol ints rows bnd x cutoff sols local fuel, 0 < q_inc q -> (forall y, o_oa O y <> []) ->
  (forall k rows obj cap z o, o_mip O k rows obj cap = (Some z, o) -> at_ints (fun v => exists i, Qabs (v - inject_Z i) <= 1 # 1000000) ints z) ->
  (forall k b v y, o_nlp O k b = (true, v, y) -> ~ v == 0) -> pump fuel O q hascol ints rows bnd x cutoff sols local <> AssertFail.
Proof.
  intros O q hascol ints rows bnd x cutoff sols local fuel I A S N. unfold pump.
  destruct (pump_start O hascol ints rows bnd x cutoff sols local) as [s| | | | | | | ] eqn:Es; cbn [bind]; try discriminate.
  - destruct (start_ok _ q _ _ _ _ _ _ _ _ _ Es) as (V & R & B & W & L). eapply loop_na; eauto.
    intros z Z. unfold pump_start in Es. destruct (sub_mip_eq _ _ _ _ Es) as (ob & _ & M & _). rewrite Z in M. eapply S; eauto.
  - exfalso. exact (proj1 (sub_mip_na O ints _) Es).
Qed.

(** ** The frame *)
Lemma take_some : forall p l r l', take_violated p l = Some (r, l') -> violated p r = true /\ In r l /\ length l = S (length l') /\ (forall x, In x l' -> In x l).
Proof.
  induction l as [|a l IH]; intros r l' H; cbn in H; [discriminate|]. destruct (violated p a) eqn:V.
  - inv H. cbn. auto.
  - destruct (take_violated p l) as [[c m]|] eqn:E; [|discriminate]. inv H. destruct (IH _ _ eq_refl) as (A & B & C & D). cbn. repeat split; auto.
    intros x [-> |X]; auto.
Qed.
Lemma take_none : forall p l, take_violated p l = None <-> existsb (violated p) l = false.
Proof.
  induction l as [|a l IH]; cbn; [intuition|]. destruct (violated p a); cbn; [split; discriminate|].
  rewrite <- IH. destruct (take_violated p l) as [[c m]|]; split; intros; congruence.
Qed.
(** The call goes through to performOa. *)
Definition reaches (c : call) (g : frame) : bool :=
  (c_feasible c && negb (Z.eqb (c_node c) (g_node g) && existsb (violated (c_point c)) (g_saved g)) && (c_integer c || c_local c))%bool.
Lemma gen_cases : forall c g, let '(th, fo, cuts, g') := generate c g in
  (reaches c g = false /\ th = false /\ cuts = [] /\ g_bnd g' = g_bnd g /\ g_count g' = g_count g /\ g_wait g' = g_wait g /\ g_bound g' = g_bound g) \/
  (reaches c g = true /\ fo = None /\ th = h_throw (c_perf c) /\ cuts = h_cuts (c_perf c) /\
   (h_throw (c_perf c) = false -> g_bnd g' = g_bnd g /\ g_wait g' = (g_wait g || negb (Nat.eqb (h_found (c_perf c)) 0))%bool /\
      total g' = (if g_wait g' then total g + Z.of_nat (h_counted (c_perf c)) else total g)%Z)).
Proof.
  intros c g. unfold generate, reaches. destruct (c_feasible c); cbn [negb andb]; [|left; cbn; auto 12].
  destruct (Z.eqb (c_node c) (g_node g)) eqn:N; cbn [andb].
  - destruct (take_violated (c_point c) (g_saved g)) as [[r l]|] eqn:T.
    + assert (existsb (violated (c_point c)) (g_saved g) = true) as ->.
      { destruct (existsb (violated (c_point c)) (g_saved g)) eqn:X; auto. apply take_none in X. congruence. }
      left. cbn. cbn; auto 12.
    + apply take_none in T. rewrite T. cbn [negb andb]. destruct (c_integer c), (c_local c); cbn [negb andb orb]; try (left; cbn; auto 12; fail);
      (destruct (h_throw (c_perf c)); right; (split; [auto|]); (split; [auto|]); (split; [auto|]); (split; [auto|]); [discriminate|];
       intros _; cbn; (split; [auto|]); (split; [auto|]); unfold total; cbn; destruct (g_wait g); cbn; [lia|]; destruct (Nat.eqb_spec (h_found (c_perf c)) 0); cbn; lia).
  - cbn [negb andb]. destruct (c_integer c), (c_local c); cbn [negb andb orb]; try (left; cbn; cbn; auto 12; fail);
      (destruct (h_throw (c_perf c)); right; (split; [auto|]); (split; [auto|]); (split; [auto|]); (split; [auto|]); [discriminate|];
       intros _; cbn; (split; [auto|]); (split; [auto|]); unfold total; cbn; destruct (g_wait g); cbn; [lia|]; destruct (Nat.eqb_spec (h_found (c_perf c)) 0); cbn; lia).
Qed.
Lemma gen_bnd : forall c g, h_throw (c_perf c) = false -> g_bnd (snd (generate c g)) = g_bnd g.
Proof.
  intros c g H. pose proof (gen_cases c g) as G. destruct (generate c g) as [[[th fo] cuts] g']. cbn. destruct G as [G|(_ & _ & _ & _ & G)]; [tauto|].
  exact (proj1 (G H)).
Qed.
Lemma gen_total : forall c g, h_throw (c_perf c) = false -> h_counted (c_perf c) = h_found (c_perf c) ->
  total (snd (generate c g)) = (total g + Z.of_nat (found_in c g))%Z.
Proof.
  intros c g H K. pose proof (gen_cases c g) as G. unfold found_in. fold (reaches c g). destruct (generate c g) as [[[th fo] cuts] g']. cbn.
  destruct G as [(R & _ & _ & _ & C & W & _)|(R & _ & _ & _ & G)]; rewrite R.
  - unfold total. rewrite C, W. lia.
  - destruct (G H) as (_ & W & T). rewrite T, W, K. destruct (g_wait g); cbn; [lia|]. destruct (Nat.eqb_spec (h_found (c_perf c)) 0) as [-> |]; cbn; lia.
Qed.
Lemma gens_total : forall cs g, (forall c, In c cs -> h_throw (c_perf c) = false /\ h_counted (c_perf c) = h_found (c_perf c)) ->
  total (snd (generates cs g)) = (total g + Z.of_nat (found_all cs g))%Z.
Proof.
  induction cs as [|c cs IH]; intros g H; cbn; [lia|]. rewrite IH by (intros; apply H; right; auto).
  destruct (H c (or_introl eq_refl)). rewrite gen_total by auto. lia.
Qed.
Lemma gens_bnd : forall cs g, (forall c, In c cs -> h_throw (c_perf c) = false) -> g_bnd (snd (generates cs g)) = g_bnd g.
Proof.
  induction cs as [|c cs IH]; intros g H; cbn; auto. rewrite IH by (intros; apply H; right; auto). apply gen_bnd. apply H. left. auto.
Qed.
(** Saved cuts. *)
Lemma gen_saved : forall c g, let '(th, fo, cuts, g') := generate c g in
  (forall r, fo = Some r -> violated (c_point c) r = true /\ In r (g_saved g) /\ c_node c = g_node g) /\
  (forall r, In r (g_saved g') -> (In r (g_saved g) /\ g_node g' = g_node g) \/ (In r (h_saved (c_perf c)) /\ g_node g' = c_node c)) /\
  ((match fo with Some _ => 1 | None => 0 end) + length (g_saved g') <= length (g_saved g) + length (h_saved (c_perf c)))%nat.
Proof.
  intros c g. unfold generate. destruct (c_feasible c); cbn [negb]; [|split; [discriminate|split; [auto|lia]]].
  destruct (Z.eqb_spec (c_node c) (g_node g)) as [N|N].
  - destruct (take_violated (c_point c) (g_saved g)) as [[r l]|] eqn:T.
    + destruct (take_some _ _ _ _ T) as (A & B & C & D). cbn. split; [intros r0 E; inv E; auto|]. split; [auto|lia].
    + destruct (negb (c_integer c) && negb (c_local c))%bool; [split; [discriminate|split; [auto|lia]]|].
      destruct (h_throw (c_perf c)); cbn; (split; [discriminate|]); (split; [|rewrite app_length; lia]); intros r I; apply in_app_or in I; destruct I; auto.
  - destruct (negb (c_integer c) && negb (c_local c))%bool; [cbn; split; [discriminate|split; [contradiction|lia]]|].
    destruct (h_throw (c_perf c)); cbn; (split; [discriminate|]); (split; [|lia]); intros r I; auto.
Qed.
Lemma gens_app : forall a b g, generates (a ++ b) g = (fst (generates a g) ++ fst (generates b (snd (generates a g))), snd (generates b (snd (generates a g)))).
Proof. induction a as [|c a IH]; intros; cbn; [destruct (generates b g); auto|]. rewrite IH. cbn. auto. Qed.
Lemma gens_saved : forall pre g, g_saved g = [] -> forall r, In r (g_saved (snd (generates pre g))) ->
  exists c, In c pre /\ In r (h_saved (c_perf c)) /\ c_node c = g_node (snd (generates pre g)).
Proof.
  induction pre as [|c pre IH] using rev_ind; intros g G r I; [cbn in I; rewrite G in I; contradiction|].
  rewrite gens_app in *. cbn [snd generates] in *. set (g1 := snd (generates pre g)) in *.
  pose proof (gen_saved c g1) as K. destruct (generate c g1) as [[[th fo] cuts] g']. cbn [snd] in *. destruct K as (_ & K & _).
  destruct (K r I) as [[A B]|[A B]].
  - destruct (IH g G r A) as (c' & I' & H' & N'). exists c'. split; [apply in_or_app; auto|]. split; auto. fold g1 in N'. congruence.
  - exists c. split; [apply in_or_app; right; left; auto|]. auto.
Qed.
Lemma gens_count : forall cs g, (count_forced (fst (generates cs g)) <= length (g_saved g) + count_saved cs)%nat.
Proof.
  induction cs as [|c cs IH]; intros g; cbn; [lia|]. pose proof (gen_saved c g) as K. specialize (IH (snd (generate c g))).
  destruct (generate c g) as [[[th fo] cuts] g']. cbn [fst snd] in *. unfold forced. cbn. destruct K as (_ & _ & K). lia.
Qed.
(** ** Cuts handed over *)
Definition cs_ok (O : orac) (s : st) : Prop := forall r, In r (s_cs s) -> exists x, In r (o_oa O x).
Lemma add_cs : forall O x s s', add_cuts O x s = Ok s' -> cs_ok O s -> cs_ok O s'.
Proof. intros O x s s' H C. destruct (add_ok _ _ _ _ H) as [-> _]. intros r I. cbn in I. apply in_app_or in I. destruct I; eauto. Qed.
Lemma fixed_cs : forall O q ints sol s e t s', fixed_nlp O q ints sol s = Ok (e, t, s') -> s_cs s' = s_cs s.
Proof.
  intros O q ints sol s e t s' H. unfold fixed_nlp in H. bnd H f Ef. destruct f as [th b0]. cbn [fst snd] in H. destruct th; [inv H; auto|].
  bnd H kr Ek. destruct kr as [[k r] b]. destruct r as [[opt v] y]. destruct (opt && _)%bool; [|inv H; auto].
  destruct (emin _ _); try discriminate. bnd H c Ec. inv H. auto.
Qed.
Lemma pass_cs : forall O q ints saved sol s e s', pump_pass O q ints saved sol s = Ok (e, s') -> cs_ok O s -> cs_ok O s'.
Proof.
  intros O q ints saved sol s e s' H C. unfold pump_pass in H. cbv zeta in H. bnd H xb Ex. bnd H es Ees. destruct es as [e1 s1].
  assert (P : cs_ok O s1).
  { destruct (Qltb _ _) in Ees.
    - bnd Ees f Ef. destruct f as [[e2 t] s2]. pose proof (fixed_cs _ _ _ _ _ _ _ _ Ef) as F.
      assert (C2 : cs_ok O s2) by (unfold cs_ok; rewrite F; exact C). destruct e2; [|inv Ees; auto].
      bnd Ees s3 E3. pose proof (add_cs _ _ _ _ E3 C2) as C3. inv Ees. destruct t; exact C3.
    - bnd Ees s3 E3. pose proof (add_cs _ _ _ _ E3 ltac:(exact C)) as C3. inv Ees. exact C3. }
  destruct e1; [|inv H; auto]. destruct (o_late _ _); [inv H; exact P|]. destruct (_ && _)%bool; [|inv H; exact P].
  bnd H s2 E2. inv H. unfold sub_mip in E2. bnd E2 ob Eo. inv E2. exact P.
Qed.
Lemma pump_cs : forall fuel O q hascol ints rows bnd x cutoff sols local e s, pump fuel O q hascol ints rows bnd x cutoff sols local = Ok (e, s) -> cs_ok O s.
Proof.
  intros fuel O q hascol ints rows bnd x cutoff sols local e s H. unfold pump in H. bnd H s0 Es.
  assert (C : cs_ok O s0). { unfold pump_start, sub_mip in Es. bnd Es ob Eo. inv Es. intros r I. contradiction. }
  clear Es. revert s0 H C. induction fuel; intros s0 H C; cbn in H; destruct (s_sol s0); try discriminate; try (inv H; auto; fail).
  bnd H es Ep. destruct es as [e1 s1]. cbn [fst snd] in H. pose proof (pass_cs _ _ _ _ _ _ _ _ Ep C). destruct e1; [|inv H; auto]. eauto.
Qed.
