(** Proofs for the branching QP. *)
From Verif Require Import Base Arr Nlp FP_Model FP_Spec FP_Proofs OA_Proofs Bqp_Model Bqp_Spec.
#[local] Open Scope Q_scope.

Lemma double_single n r c (v : Q) (f : nat -> nat -> Q) : (r < n)%nat -> (c < n)%nat ->
  qsum (map (fun i => qsum (map (fun j => (if (Nat.eqb r i && Nat.eqb c j)%bool then v else 0) * f i j) (seq 0 n))) (seq 0 n)) == v * f r c.
Proof.
  intros R C. rewrite (qsum_ext _ (fun i => if Nat.eqb r i then v * f i c else 0)).
  - exact (qsum_single n r (fun i => v * f i c) R).
  - intros i _. destruct (Nat.eqb r i); cbn [andb].
    + rewrite (qsum_ext _ (fun j => if Nat.eqb c j then v * f i j else 0)) by (intros j _; destruct (Nat.eqb c j); ring).
      exact (qsum_single n c (fun j => v * f i j) C).
    + apply qsum_all0. intros; ring.
Qed.
(** Contribution of one triplet to the bilinear form. *)
Definition tb (a b : list Q) (t : nat * nat * Q) : Q :=
  let '(r, c, v) := t in
  if Nat.eqb r c then v * (at_ a r * at_ b r) else v * (at_ a r * at_ b c) + v * (at_ a c * at_ b r).
Definition ind0 (t : nat * nat * Q) (i j : nat) : Q :=
  if (Nat.eqb (fst (fst t)) i && Nat.eqb (snd (fst t)) j)%bool then snd t else 0.
Definition inds (t : nat * nat * Q) (i j : nat) : Q := ind0 t i j + (if Nat.eqb i j then 0 else ind0 t j i).
Lemma form_add n S T a b : form n (fun i j => S i j + T i j) a b == form n S a b + form n T a b.
Proof.
  unfold form. rewrite <- qsum_add. apply qsum_ext. intros i _. rewrite <- qsum_add. apply qsum_ext. intros j _. ring.
Qed.
Lemma form_ext n S T a b : (forall i j, S i j == T i j) -> form n S a b == form n T a b.
Proof. intros H. unfold form. apply qsum_ext. intros i _. apply qsum_ext. intros j _. rewrite (H i j). reflexivity. Qed.
Lemma form_ind n t a b : (fst (fst t) < n)%nat -> (snd (fst t) < n)%nat -> form n (inds t) a b == tb a b t.
Proof.
  destruct t as [[r c] v]. cbn [fst snd]. intros R C. unfold tb, inds, ind0. cbn [fst snd].
  destruct (Nat.eqb_spec r c) as [e|N].
  - subst c. rewrite <- (double_single n r r v (fun i j => at_ a i * at_ b j) R R). unfold form. apply qsum_ext. intros i _. apply qsum_ext. intros j _.
    destruct (Nat.eqb_spec i j) as [e|N']; [ring|]. destruct (Nat.eqb_spec r j), (Nat.eqb_spec r i); subst; cbn [andb]; try congruence; ring.
  - rewrite <- (double_single n r c v (fun i j => at_ a i * at_ b j) R C). rewrite <- (double_single n c r v (fun i j => at_ a i * at_ b j) C R).
    rewrite <- qsum_add. unfold form. apply qsum_ext. intros i _. rewrite <- qsum_add. apply qsum_ext. intros j _.
    rewrite (andb_comm (Nat.eqb c i)). destruct (Nat.eqb_spec i j) as [e|N']; [|ring].
    subst j. destruct (Nat.eqb_spec r i), (Nat.eqb_spec c i); subst; cbn [andb]; try congruence; ring.
Qed.
Lemma form_zero n a b : form n (fun _ _ => 0) a b == 0.
Proof. unfold form. apply qsum_all0. intros i _. apply qsum_all0. intros j _. ring. Qed.
Lemma form_triplets n a b : forall ts, Forall (fun t => (fst (fst t) < n)%nat /\ (snd (fst t) < n)%nat) ts ->
  form n (fun i j => qsum (map (fun t => inds t i j) ts)) a b == qsum (map (tb a b) ts).
Proof.
  induction 1 as [|t ts [R C] F IH]; cbn [map qsum]; [apply form_zero|].
  rewrite <- IH, <- (form_ind n t a b R C). rewrite <- (form_add n (inds t)). reflexivity.
Qed.
Lemma sym_ind st vs i j : sym 0 st vs i j == qsum (map (fun t => inds t i j) (combine st vs)).
Proof.
  unfold sym, dense, inds. destruct (Nat.eqb i j).
  - rewrite (qsum_ext (fun t => ind0 t i j + 0) (fun t => ind0 t i j)) by (intros; ring). rewrite Qplus_0_r. apply qsum_ext.
    intros t _. unfold ind0. rewrite !Nat.add_0_r. reflexivity.
  - rewrite qsum_add. apply Qplus_comp; apply qsum_ext; intros t _; unfold ind0; rewrite !Nat.add_0_r; reflexivity.
Qed.
Lemma dense_from0 off : forall st vs i j, Forall (fun rc : nat * nat => (off <= fst rc /\ off <= snd rc)%nat) st ->
  dense 0 (map (from0 off) st) vs i j == dense off st vs i j.
Proof.
  induction st as [|[r c] st IH]; intros [|v vs] i j F; unfold dense; cbn [map combine qsum]; try reflexivity.
  inversion F as [|? ? [Fr Fc] F']; subst. cbn [fst snd] in Fr, Fc. apply Qplus_comp.
  - cbn [fst snd from0]. rewrite !Nat.add_0_r. unfold from0. cbn [fst snd].
    destruct (Nat.eqb_spec (r - off) i), (Nat.eqb_spec r (i + off)); try lia;
      destruct (Nat.eqb_spec (c - off) j), (Nat.eqb_spec c (j + off)); try lia; reflexivity.
  - exact (IH vs i j F').
Qed.
Lemma sym_from0 off st vs i j : Forall (fun rc : nat * nat => (off <= fst rc /\ off <= snd rc)%nat) st ->
  sym 0 (map (from0 off) st) vs i j == sym off st vs i j.
Proof. intros F. unfold sym. rewrite dense_from0 by exact F. destruct (Nat.eqb i j); [reflexivity|]. rewrite dense_from0 by exact F. reflexivity. Qed.

(** ** The loops *)
Definition in_n (n : nat) (ts : list (nat * nat * Q)) := Forall (fun t => (fst (fst t) < n)%nat /\ (snd (fst t) < n)%nat) ts.
Lemma hess_f_ok n x : length x = n -> forall ts acc, in_n n ts ->
  exists r, hess_f ts x acc = Ok r /\ r == acc + (1 # 2) * qsum (map (tb x x) ts).
Proof.
  intros L. induction ts as [|[[r c] h] ts IH]; intros acc F; cbn [hess_f].
  - exists acc. split; [reflexivity|]. cbn [map qsum]. ring.
  - inversion F as [|? ? [R C] F']; subst. cbn [fst snd] in R, C. rewrite !rd_ok by lia. cbn [bind].
    match goal with |- context [hess_f ts x ?v] => destruct (IH v F') as (q & -> & E) end.
    exists q. split; [reflexivity|]. rewrite E. cbn [map qsum tb]. destruct (Nat.eqb_spec r c) as [e|N]; [subst c|]; ring.
Qed.
(** Gradient contribution along a direction. *)
Lemma hess_grad_ok n x : length x = n -> forall ts g, in_n n ts -> length g = n ->
  exists g', hess_grad ts x g = Ok g' /\ length g' = n /\ forall e, length e = n -> dot g' e == dot g e + qsum (map (tb x e) ts).
Proof.
  intros L. induction ts as [|[[r c] h] ts IH]; intros g F LG; cbn [hess_grad].
  - exists g. split; [reflexivity|]. split; [exact LG|]. intros. cbn [map qsum]. ring.
  - inversion F as [|? ? [R C] F']; subst. cbn [fst snd] in R, C. rewrite (rd_ok x c) by lia. cbn [bind].
    destruct (ladd_ok r (h * at_ x c) g ltac:(lia)) as (g1 & -> & L1 & E1). cbn [bind].
    destruct (Nat.eqb_spec r c) as [e|N].
    + subst c. cbn [bind]. destruct (IH g1 F' ltac:(lia)) as (g' & -> & L' & E'). exists g'. split; [reflexivity|]. split; [exact L'|].
      intros e Le. rewrite (E' e Le), (E1 e). cbn [map qsum tb]. rewrite Nat.eqb_refl.
      destruct (Nat.ltb_spec r (length e)); [ring|lia].
    + rewrite (rd_ok x r) by lia. cbn [bind]. destruct (ladd_ok c (h * at_ x r) g1 ltac:(lia)) as (g2 & -> & L2 & E2). cbn [bind].
      destruct (IH g2 F' ltac:(lia)) as (g' & -> & L' & E'). exists g'. split; [reflexivity|]. split; [exact L'|].
      intros e Le. rewrite (E' e Le), (E2 e), (E1 e). cbn [map qsum tb]. apply Nat.eqb_neq in N. rewrite N.
      destruct (Nat.ltb_spec r (length e)); [|lia]. destruct (Nat.ltb_spec c (length e)); [ring|lia].
Qed.
Lemma ladd_nth i v : forall l, (i < length l)%nat -> exists l', ladd i v l = Ok l' /\ length l' = length l /\
  forall k, at_ l' k == at_ l k + (if Nat.eqb i k then v else 0).
Proof.
  induction i as [|i IH]; intros [|c l] L; simpl in L; try lia; cbn [ladd].
  - eexists. split; [reflexivity|]. split; [reflexivity|]. intros [|k]; unfold at_; cbn [nth Nat.eqb]; ring.
  - destruct (IH l ltac:(lia)) as (l' & -> & LL & E). cbn [bind]. eexists. split; [reflexivity|]. split; [simpl; congruence|].
    intros [|k]; unfold at_ in *; cbn [nth Nat.eqb]; [ring|apply E].
Qed.
Lemma jac_g_ok n m x : length x = n -> forall ts g, Forall (fun t : nat * nat * Q => (fst (fst t) < m)%nat /\ (snd (fst t) < n)%nat) ts -> length g = m ->
  exists g', jac_g ts x g = Ok g' /\ length g' = m /\
    forall k, at_ g' k == at_ g k + qsum (map (fun t => if Nat.eqb (fst (fst t)) k then snd t * at_ x (snd (fst t)) else 0) ts).
Proof.
  intros L. induction ts as [|[[r c] a] ts IH]; intros g F LG; cbn [jac_g].
  - exists g. split; [reflexivity|]. split; [exact LG|]. intros. cbn [map qsum]. ring.
  - inversion F as [|? ? [R C] F']; subst. cbn [fst snd] in R, C. rewrite (rd_ok x c) by lia. cbn [bind].
    destruct (ladd_nth r (a * at_ x c) g ltac:(lia)) as (g1 & -> & L1 & E1). cbn [bind].
    destruct (IH g1 F' ltac:(lia)) as (g' & -> & L' & E'). exists g'. split; [reflexivity|]. split; [exact L'|].
    intros k. rewrite (E' k), (E1 k). cbn [map qsum fst snd]. ring.
Qed.

(** ** The QP of a node *)
Section Node.
Context (P : nlp) (x0 du : list Q) (NO : node_ok P x0 du) (B : bqp) (MK : bqp_make P (Some x0) (Some du) = Ok B).
Let OK := proj1 NO.
Let L0 := proj1 (proj2 NO).
Lemma B_is : B = mkBqp P (p_f P x0) (p_gf P x0) (map (from0 (p_off P)) (p_hst P)) (p_hv P x0 1 (skipn (2 * p_n P) du))
            (p_g P x0) (map (from0 (p_off P)) (p_jst P)) (p_jv P x0) x0 du.
Proof. unfold bqp_make in MK. injection MK as <-. reflexivity. Qed.
Lemma hst_ge : Forall (fun rc : nat * nat => (p_off P <= fst rc /\ p_off P <= snd rc)%nat) (p_hst P).
Proof. eapply Forall_impl; [|exact (ok_hst P OK)]. cbv beta. intros rc H. lia. Qed.
Lemma jst_ge : Forall (fun rc : nat * nat => (p_off P <= fst rc /\ p_off P <= snd rc)%nat) (p_jst P).
Proof. eapply Forall_impl; [|exact (ok_jst P OK)]. cbv beta. intros rc H. lia. Qed.
Lemma h_in : in_n (p_n P) (combine (b_hst B) (b_hv B)).
Proof.
  rewrite B_is. cbn [b_hst b_hv]. apply Forall_forall. intros [rc v] I. apply in_combine_l in I. apply in_map_iff in I. destruct I as (rc0 & <- & I).
  pose proof (ok_hst P OK) as F. rewrite Forall_forall in F. specialize (F _ I). cbn [fst snd from0]. unfold from0. cbn [fst snd]. lia.
Qed.
Lemma tri_form a b : qsum (map (tb a b) (combine (b_hst B) (b_hv B))) == form (p_n P) (hlag P x0 du) a b.
Proof.
  rewrite <- (form_triplets (p_n P) a b _ h_in). apply form_ext. intros i j. rewrite <- sym_ind. rewrite B_is. cbn [b_hst b_hv].
  unfold hlag. apply sym_from0, hst_ge.
Qed.
Lemma dot_comm a : forall b, dot a b == dot b a.
Proof. unfold dot. induction a as [|x a IH]; intros [|y b]; cbn [combine map qsum fst snd]; try reflexivity. rewrite IH. ring. Qed.
Lemma objective d : length d = p_n P -> exists f, b_eval_f B d = Ok f /\ f == qmodel P x0 du d.
Proof.
  intros L. unfold b_eval_f. destruct (hess_f_ok (p_n P) d L (combine (b_hst B) (b_hv B)) (dot d (b_grad B)) h_in) as (f & -> & E).
  exists f. split; [reflexivity|]. rewrite E, tri_form, dot_comm. rewrite B_is. reflexivity.
Qed.
Lemma dot_ladds a : forall b c, length b = length a -> length c = length a -> dot a (ladds b c) == dot a b + dot a c.
Proof.
  unfold dot, ladds. induction a as [|x a IH]; intros [|y b] [|z c] H1 H2; cbn [combine map qsum fst snd] in *; try discriminate; [ring|].
  rewrite IH by (simpl in *; lia). ring.
Qed.
Lemma form_ladds S d e n : length d = n -> length e = n -> (forall i j, S i j == S j i) ->
  form n S (ladds d e) (ladds d e) == form n S d d + 2 * form n S d e + form n S e e.
Proof.
  intros Ld Le SY.
  assert (SW : form n S e d == form n S d e).
  { unfold form.
    assert (FUB : forall (f : nat -> nat -> Q) l1 l2, qsum (map (fun i => qsum (map (f i) l2)) l1) == qsum (map (fun j => qsum (map (fun i => f i j) l1)) l2)).
    { intros f l1 l2. induction l1 as [|a l1 IH]; cbn [map qsum]; [symmetry; apply qsum_all0; intros; reflexivity|].
      rewrite IH. rewrite <- qsum_add. reflexivity. }
    rewrite (FUB (fun i j => S i j * (at_ e i * at_ d j))). apply qsum_ext. intros i _. apply qsum_ext. intros j _. rewrite (SY j i). ring. }
  rewrite <- (Qplus_0_r (form n S d d + 2 * form n S d e)).
  assert (E : form n S (ladds d e) (ladds d e) == form n S d d + form n S d e + form n S e d + form n S e e).
  { unfold form. rewrite <- !qsum_add. apply qsum_ext. intros i _. rewrite <- !qsum_add. apply qsum_ext. intros j _.
    rewrite !at_ladds by lia. ring. }
  rewrite E, SW. ring.
Qed.
Lemma sym_sym off st vs i j : sym off st vs i j == sym off st vs j i.
Proof.
  unfold sym. rewrite (Nat.eqb_sym j i). destruct (Nat.eqb_spec i j) as [e|N]; [subst j; ring|ring].
Qed.
Lemma gradient_exact d : length d = p_n P -> exists g f, b_eval_grad_f B d = Ok g /\ length g = p_n P /\ b_eval_f B d = Ok f /\
  forall e, length e = p_n P -> exists f', b_eval_f B (ladds d e) = Ok f' /\
    f' == f + dot g e + (1 # 2) * form (p_n P) (hlag P x0 du) e e.
Proof.
  intros L. unfold b_eval_grad_f.
  assert (LG : length (b_grad B) = p_n P) by (rewrite B_is; cbn [b_grad]; apply (ok_gf P OK), L0).
  destruct (hess_grad_ok (p_n P) d L _ (b_grad B) h_in LG) as (g & -> & LG' & EG).
  destruct (objective d L) as (f & EF & F). exists g, f. split; [reflexivity|]. split; [exact LG'|]. split; [exact EF|].
  intros e Le. assert (LE : length (ladds d e) = p_n P) by (unfold ladds; rewrite map_length, combine_length; lia).
  destruct (objective (ladds d e) LE) as (f' & EF' & F'). exists f'. split; [exact EF'|]. rewrite F', F, (EG e Le), tri_form.
  unfold qmodel. rewrite form_ladds by (try assumption; intros; apply sym_sym).
  rewrite dot_ladds by (rewrite (ok_gf P OK) by exact L0; assumption). rewrite B_is at 1. cbn [b_grad]. ring.
Qed.
Lemma constraint_rows d : length d = p_n P -> exists g, b_eval_g B d = Ok g /\ length g = p_m P /\
  forall i, at_ g i == mrow (p_n P) (jac0 P x0) i d.
Proof.
  intros L. unfold b_eval_g.
  assert (F : Forall (fun t : nat * nat * Q => (fst (fst t) < p_m P)%nat /\ (snd (fst t) < p_n P)%nat) (combine (b_jst B) (b_jv B))).
  { rewrite B_is. cbn [b_jst b_jv]. apply Forall_forall. intros [rc v] I. apply in_combine_l in I. apply in_map_iff in I. destruct I as (rc0 & <- & I).
    pose proof (ok_jst P OK) as F. rewrite Forall_forall in F. specialize (F _ I). unfold from0. cbn [fst snd]. lia. }
  assert (LR : length (repeat 0 (p_m (b_P B))) = p_m P) by (rewrite repeat_length, B_is; reflexivity).
  destruct (jac_g_ok (p_n P) (p_m P) d L _ _ F LR) as (g & -> & LG & E). exists g. split; [reflexivity|]. split; [exact LG|].
  intros i. rewrite (E i). assert (Z : at_ (repeat 0 (p_m (b_P B))) i == 0).
  { unfold at_. generalize (p_m (b_P B)). revert i. intros i k. revert i. induction k as [|k IHk]; intros [|i]; cbn [repeat nth]; try reflexivity. apply IHk. }
  rewrite Z. unfold mrow, jac0.
  assert (J : qsum (map (fun j => dense (p_off P) (p_jst P) (p_jv P x0) i j * at_ d j) (seq 0 (p_n P))) ==
              qsum (map (fun j => dense 0 (b_jst B) (b_jv B) i j * at_ d j) (seq 0 (p_n P)))).
  { apply qsum_ext. intros j _. rewrite B_is. cbn [b_jst b_jv]. rewrite dense_from0 by exact jst_ge. reflexivity. }
  rewrite J. unfold dense.
  rewrite (dense_sum (p_n P) 0 (combine (b_jst B) (b_jv B)) i (at_ d)).
  - rewrite map_map. cbn [fst snd]. generalize (combine (b_jst B) (b_jv B)). intros ts.
    induction ts as [|[[r c] v] ts IH]; cbn [map qsum filter fst snd]; [reflexivity|].
    rewrite Nat.add_0_r in *. destruct (Nat.eqb r i); cbn [map qsum fst snd]; rewrite ?Nat.sub_0_r; lra.
  - intros p I. rewrite Forall_forall in F. specialize (F p I). lia.
Qed.
Lemma shift_lo l q v : lo_ok (eshift l q) v <-> lo_ok l (q + v).
Proof. destruct l; cbn; split; intros; try tauto; lra. Qed.
Lemma shift_up l q v : up_ok (eshift l q) v <-> up_ok l (q + v).
Proof. destruct l; cbn; split; intros; try tauto; lra. Qed.
Lemma shifted_bounds (R : ext -> Q -> Prop) : (forall l q v, R (eshift l q) v <-> R l (q + v)) ->
  forall ls qs vs, length qs = length ls -> length vs = length ls ->
  (Forall2 R (map (fun p => eshift (fst p) (snd p)) (combine ls qs)) vs <-> Forall2 R ls (ladds qs vs)).
Proof.
  intros HR. induction ls as [|l ls IH]; intros [|q qs] [|v vs] L1 L2; simpl in L1, L2; try discriminate.
  - split; constructor.
  - cbn [combine map fst snd ladds]. unfold ladds. cbn [combine map fst snd]. split; intros F; inversion F; subst; constructor;
      try (apply HR; assumption); apply (IH qs vs); (lia || assumption).
Qed.
Lemma qp_bounds d : length d = p_n P ->
  (in_bounds (b_xl B) (b_xu B) d <-> in_bounds (p_xl P) (p_xu P) (ladds x0 d)).
Proof.
  intros L. unfold in_bounds, b_xl, b_xu. rewrite B_is. cbn [b_P b_x0].
  rewrite (shifted_bounds lo_ok shift_lo), (shifted_bounds up_ok shift_up) by (rewrite ?(ok_xl P OK), ?(ok_xu P OK); assumption). reflexivity.
Qed.
Lemma Forall2_eq (R : ext -> Q -> Prop) : (forall l v w, v == w -> (R l v <-> R l w)) -> forall ls a b, eqs a b -> (Forall2 R ls a <-> Forall2 R ls b).
Proof.
  intros HR ls a b E. revert ls. induction E as [|x y a b XY E IH]; intros ls; [reflexivity|].
  split; intros F; inversion F; subst; constructor; try (apply (HR _ x y XY); assumption); try (apply (HR _ y x); [symmetry; exact XY|assumption]); apply IH; assumption.
Qed.
Lemma eqs_nth : forall a b, length a = length b -> (forall i, (i < length a)%nat -> at_ a i == at_ b i) -> eqs a b.
Proof.
  induction a as [|x a IH]; intros [|y b] L H; simpl in L; try discriminate; constructor.
  - exact (H 0%nat ltac:(simpl; lia)).
  - apply IH; [lia|]. intros i I. exact (H (S i) ltac:(simpl; lia)).
Qed.
Lemma lin_g_eq d g : length g = p_m P -> (forall i, at_ g i == mrow (p_n P) (jac0 P x0) i d) -> eqs (ladds (p_g P x0) g) (lin_g P x0 d).
Proof.
  intros LG E. assert (LP : length (p_g P x0) = p_m P) by (apply (ok_g P OK), L0).
  assert (LL : length (ladds (p_g P x0) g) = p_m P) by (unfold ladds; rewrite map_length, combine_length; lia).
  apply eqs_nth; [unfold lin_g; rewrite map_length, seq_length; exact LL|]. rewrite LL. intros i I.
  rewrite at_ladds by lia. rewrite E. unfold lin_g. unfold at_ at 2.
  rewrite (nth_indep _ 0 ((fun i => at_ (p_g P x0) i + mrow (p_n P) (jac0 P x0) i d) 0%nat)) by (rewrite map_length, seq_length; exact I).
  rewrite (map_nth (fun i => at_ (p_g P x0) i + mrow (p_n P) (jac0 P x0) i d)). rewrite seq_nth by exact I. reflexivity.
Qed.
Lemma lo_eq l v w : v == w -> (lo_ok l v <-> lo_ok l w).
Proof. intros E. destruct l; cbn; split; intros; try tauto; lra. Qed.
Lemma up_eq l v w : v == w -> (up_ok l v <-> up_ok l w).
Proof. intros E. destruct l; cbn; split; intros; try tauto; lra. Qed.
Lemma qp_feasible d : length d = p_n P -> exists g, b_eval_g B d = Ok g /\
  (in_bounds (b_xl B) (b_xu B) d /\ in_bounds (b_gl B) (b_gu B) g <->
   in_bounds (p_xl P) (p_xu P) (ladds x0 d) /\ in_bounds (p_gl P) (p_gu P) (lin_g P x0 d)).
Proof.
  intros L. destruct (constraint_rows d L) as (g & E & LG & HG). exists g. split; [exact E|]. rewrite (qp_bounds d L).
  assert (LP : length (p_g P x0) = p_m P) by (apply (ok_g P OK), L0).
  assert (GG : in_bounds (b_gl B) (b_gu B) g <-> in_bounds (p_gl P) (p_gu P) (lin_g P x0 d)).
  { unfold in_bounds, b_gl, b_gu. rewrite B_is. cbn [b_P b_g].
    rewrite (shifted_bounds lo_ok shift_lo), (shifted_bounds up_ok shift_up) by (rewrite ?(ok_gl P OK), ?(ok_gu P OK); assumption).
    rewrite (Forall2_eq lo_ok lo_eq (p_gl P) _ _ (lin_g_eq d g LG HG)), (Forall2_eq up_ok up_eq (p_gu P) _ _ (lin_g_eq d g LG HG)). reflexivity. }
  rewrite GG. reflexivity.
Qed.
(** Derivative structures. *)
Lemma to_from off st : Forall (fun rc : nat * nat => (off <= fst rc /\ off <= snd rc)%nat) st -> map (to_style off) (map (from0 off) st) = st.
Proof.
  induction 1 as [|[r c] st [H1 H2] F IH]; [reflexivity|]. cbn [map]. rewrite IH. f_equal. unfold to_style, from0. cbn [fst snd] in *. f_equal; lia.
Qed.
Lemma jac_same x : b_jac_struct B = p_jst P /\ b_jac_vals B x = p_jv P x0.
Proof. unfold b_jac_struct, b_jac_vals. rewrite B_is. cbn [b_P b_jst b_jv]. split; [apply to_from, jst_ge|reflexivity]. Qed.
Lemma dense_map_scale s off st : forall vs i j, dense off st (map (fun v => v * s) vs) i j == s * dense off st vs i j.
Proof.
  unfold dense. induction st as [|rc st IH]; intros [|v vs] i j; cbn [map combine qsum]; try ring.
  cbn [fst snd]. rewrite (IH vs i j). destruct (_ && _)%bool; ring.
Qed.
Lemma dense_map_zero off st : forall (vs : list Q) i j, dense off st (map (fun _ => 0) vs) i j == 0.
Proof.
  unfold dense. induction st as [|rc st IH]; intros [|v vs] i j; cbn [map combine qsum]; try ring.
  cbn [fst snd]. rewrite (IH vs i j). destruct (_ && _)%bool; ring.
Qed.
Lemma hess_same x s l i j : b_h_struct B = p_hst P /\ sym (p_off P) (b_h_struct B) (b_h_vals B x s l) i j == s * hlag P x0 du i j.
Proof.
  assert (E : b_h_struct B = p_hst P) by (unfold b_h_struct; rewrite B_is; cbn [b_P b_hst]; apply to_from, hst_ge).
  split; [exact E|]. rewrite E. unfold b_h_vals. rewrite B_is. cbn [b_hv]. unfold hlag, sym.
  destruct (Qeq_bool s 0) eqn:S0.
  - apply Qeq_bool_eq in S0. destruct (Nat.eqb i j); rewrite !dense_map_zero, S0; ring.
  - destruct (Qeq_bool s 1) eqn:S1.
    + apply Qeq_bool_eq in S1. rewrite S1. ring.
    + destruct (Nat.eqb i j); rewrite !dense_map_scale; ring.
Qed.
Lemma start_spec : fst (fst (fst (b_start B))) = repeat 0 (p_n P) /\
  snd (fst (fst (b_start B))) ++ snd (fst (b_start B)) ++ snd (b_start B) = du.
Proof.
  unfold b_start. rewrite B_is. cbn [fst snd b_P b_dual]. split; [reflexivity|]. pose proof (proj2 (proj2 NO)) as LD.
  assert (E : firstn (p_m P) (skipn (2 * p_n P) du) = skipn (2 * p_n P) du) by (apply firstn_all2; rewrite skipn_length; lia).
  assert (E2 : forall (A : Type) a b (l : list A), skipn (a + b) l = skipn b (skipn a l)).
  { intros A. induction a as [|a IHa]; intros b l; [reflexivity|]. destruct l as [|z l]; cbn [skipn plus]; [destruct b; reflexivity|apply IHa]. }
  rewrite E. replace (2 * p_n P)%nat with (p_n P + p_n P)%nat by lia. rewrite E2.
  rewrite (firstn_skipn (p_n P) (skipn (p_n P) du)). apply firstn_skipn.
Qed.
Lemma final_point d g v : length d = p_n P -> r_x (b_finalize B false d g v) = ladds x0 d /\ r_x (b_finalize B true d g v) = ladds x0 d.
Proof. intros _. rewrite B_is. split; reflexivity. Qed.
End Node.
