(** What a problem (a TMINLP or TNLP object) answers to the queries of the
    NLP solver interface.  src/Interfaces/BonTMINLP.hpp 130-330 and Ipopt's
    TNLP: dimensions, index style, bounds, linearity, starting point, values,
    sparse Jacobian and sparse Hessian of the Lagrangian.
    Simplification: callbacks succeed (return true) and are functions of the point. *)
From Verif Require Import Base Arr.
#[local] Open Scope Q_scope.

Record nlp := mkNlp {
  p_n : nat;                         (* variables *)
  p_m : nat;                         (* constraints *)
  p_off : nat;                       (* 0: C_STYLE, 1: FORTRAN_STYLE *)
  p_xl : list ext; p_xu : list ext;
  p_gl : list ext; p_gu : list ext;
  p_lin : list bool;                 (* constraint is linear *)
  p_int : list bool;                 (* variable is integer *)
  p_x0 : list Q;                     (* starting point *)
  p_l0 : list Q;                     (* starting multipliers *)
  p_f : list Q -> Q;
  p_gf : list Q -> list Q;
  p_g : list Q -> list Q;
  p_jst : list (nat * nat);          (* Jacobian structure, indices include the offset *)
  p_jv : list Q -> list Q;
  p_hst : list (nat * nat);          (* Hessian structure (lower triangle) *)
  p_hv : list Q -> Q -> list Q -> list Q   (* x, objective factor, multipliers *)
}.

(** The interface contract: array lengths and index ranges. *)
Record nlp_ok (P : nlp) : Prop := {
  ok_xl : length (p_xl P) = p_n P;
  ok_xu : length (p_xu P) = p_n P;
  ok_gl : length (p_gl P) = p_m P;
  ok_gu : length (p_gu P) = p_m P;
  ok_lin : length (p_lin P) = p_m P;
  ok_int : length (p_int P) = p_n P;
  ok_x0 : length (p_x0 P) = p_n P;
  ok_l0 : length (p_l0 P) = p_m P;
  ok_gf : forall x, length x = p_n P -> length (p_gf P x) = p_n P;
  ok_g : forall x, length x = p_n P -> length (p_g P x) = p_m P;
  ok_jv : forall x, length x = p_n P -> length (p_jv P x) = length (p_jst P);
  ok_hv : forall x s l, length x = p_n P -> length l = p_m P -> length (p_hv P x s l) = length (p_hst P);
  ok_jst : Forall (fun rc => p_off P <= fst rc /\ fst rc < p_m P + p_off P /\
                             p_off P <= snd rc /\ snd rc < p_n P + p_off P)%nat (p_jst P);
  ok_hst : Forall (fun rc => p_off P <= fst rc /\ fst rc < p_n P + p_off P /\
                             p_off P <= snd rc /\ snd rc < p_n P + p_off P)%nat (p_hst P)
}.

(** Mathematical reading. *)
Definition in_bounds (ls us : list ext) (vs : list Q) : Prop :=
  Forall2 lo_ok ls vs /\ Forall2 up_ok us vs.
Definition feasible (P : nlp) (x : list Q) : Prop :=
  in_bounds (p_xl P) (p_xu P) x /\ in_bounds (p_gl P) (p_gu P) (p_g P x).
(** Entry (i,j), counted from 0, of the matrix stored by triplets. *)
Definition dense (off : nat) (st : list (nat * nat)) (vs : list Q) (i j : nat) : Q :=
  qsum (map (fun p => if (Nat.eqb (fst (fst p)) (i + off) && Nat.eqb (snd (fst p)) (j + off))%bool
                      then snd p else 0) (combine st vs)).
Definition dot (a b : list Q) : Q := qsum (map (fun p => fst p * snd p) (combine a b)).
Definition lower_bound (P : nlp) (v : Q) : Prop := forall x, feasible P x -> v <= p_f P x.

Lemma dense_app off s1 s2 v1 v2 i j : length s1 = length v1 ->
  dense off (s1 ++ s2) (v1 ++ v2) i j == dense off s1 v1 i j + dense off s2 v2 i j.
Proof.
  intros L. unfold dense.
  assert (E : combine (s1 ++ s2) (v1 ++ v2) = combine s1 v1 ++ combine s2 v2).
  { revert v1 L; induction s1 as [|a s1 IH]; intros [|b v1] L; simpl in *; try discriminate; [reflexivity|].
    f_equal. apply IH. lia. }
  rewrite E, map_app. apply qsum_app.
Qed.
Lemma qsum_all0 {A} (f : A -> Q) l : (forall a, In a l -> f a == 0) -> qsum (map f l) == 0.
Proof.
  induction l as [|a l IH]; simpl; intros H; [reflexivity|].
  rewrite (H a (or_introl eq_refl)). rewrite IH; [ring|]. intros b Hb; apply H; right; exact Hb.
Qed.
Lemma qsum_ext {A} (f g : A -> Q) l : (forall a, In a l -> f a == g a) -> qsum (map f l) == qsum (map g l).
Proof.
  induction l as [|a l IH]; simpl; intros H; [reflexivity|].
  rewrite (H a (or_introl eq_refl)). rewrite IH; [reflexivity|]. intros b Hb; apply H; right; exact Hb.
Qed.
Lemma dense_zero off st vs i j :
  (forall rc, In rc st -> (fst rc <> i + off \/ snd rc <> j + off)%nat) -> dense off st vs i j == 0.
Proof.
  intros H. apply qsum_all0. intros [[r c] v] HI. apply in_combine_l in HI. specialize (H _ HI). simpl in *.
  destruct (Nat.eqb_spec r (i + off)), (Nat.eqb_spec c (j + off)); simpl; try reflexivity. lia.
Qed.
(** A dense row written as entries (r, o), (r, o+1), ... *)
Lemma dense_row off r vs : forall o i j,
  dense off (map (fun k => (r, k)) (seq o (length vs))) vs i j ==
  (if Nat.eqb r (i + off) then if Nat.leb o (j + off) then nth (j + off - o) vs 0 else 0 else 0).
Proof.
  induction vs as [|v vs IH]; intros o i j; unfold dense; cbn [length seq map combine qsum].
  - destruct (Nat.eqb r (i + off)), (Nat.leb o (j + off)); try reflexivity.
    destruct (j + off - o)%nat; reflexivity.
  - fold (dense off (map (fun k => (r, k)) (seq (S o) (length vs))) vs i j). rewrite IH. simpl fst; simpl snd.
    destruct (Nat.eqb_spec r (i + off)); cbn [andb]; cbv iota; [|ring].
    destruct (Nat.eqb_spec o (j + off)).
    + subst o. destruct (Nat.leb_spec (S (j + off)) (j + off)); [lia|].
      destruct (Nat.leb_spec (j + off) (j + off)); [|lia]. rewrite Nat.sub_diag. cbn [nth]; cbv iota; ring.
    + destruct (Nat.leb_spec (S o) (j + off)).
      * destruct (Nat.leb_spec o (j + off)); [|lia].
        replace (j + off - o)%nat with (S (j + off - S o)) by lia. cbn [nth]; cbv iota; ring.
      * destruct (Nat.leb_spec o (j + off)); [lia|]. cbv iota. ring.
Qed.
