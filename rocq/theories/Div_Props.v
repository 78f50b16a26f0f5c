(** Properties of the diving heuristics: C41, C85, C86, C87. *)
From Verif Require Import Base Arr Nlp Oad_Model Div_Model Div_Spec Div_Proofs Div_Proofs2.
#[local] Open Scope Q_scope.

(** ** C41 *)
(** The full statement is false: a solver that reports success with a point outside its
    bounds makes the heuristic widen them and return a point outside the original box. *)
Theorem C41_refuted : ~ C41_full.
Proof. exact C41_false. Qed.
Print Assumptions C41_refuted.

(** With a solver that stays inside the bounds it is given, everything claimed holds; without
    that, everything but the bounds.  Any selection rule, any number of rounds. *)
Theorem C41_partial : forall fuel p S' R tol pct node howOften pass b0 x0 gs val old r,
  sizes p b0 -> 0 <= tol ->
  dive fuel p S' R tol pct node howOften pass b0 x0 gs val old = Ok r ->
  (r_found r = true -> better_solution p tol val gs r) /\
  (r_found r = false -> r_value r = val /\ r_better r = old) /\
  (honest S' -> length x0 = length (d_ints p) -> (r_found r = true -> in_box b0 (r_better r)) /\ Forall (part_of b0) (r_log r)).
Proof. exact dive_cases. Qed.
Print Assumptions C41_partial.

(** A dive with an honest solver that answers the lower bound, constraint x <= 2. *)
Definition p3 : dprob := mkDprob [true] [MInf] [Fin 2] (fun x => nth 0 x 0) (fun x => x).
Definition S3 : solver := fun k b => match k_lo b, k_up b with
  | [Fin l], [Fin u] => if Nat.eqb k 0 then (false, [u]) else (Qle_bool l u, [l]) | _, _ => (false, []) end.
Lemma S3_honest : honest S3.
Proof.
  intros k [lo up] x. unfold S3. cbn [k_lo k_up]. destruct lo as [|[|l|] [|? ?]]; try discriminate. destruct up as [|[|u|] [|? ?]]; try discriminate.
  destruct (Nat.eqb k 0); [discriminate|]. intros H. assert (x = [l] /\ Qle_bool l u = true) as (-> & E) by (split; congruence).
  apply Qleb_le in E. split; repeat constructor; simpl; lra.
Qed.
Example C41_example : sizes p3 (mkCols [Fin 0] [Fin 3]) /\ honest S3 /\
  dive 5 p3 S3 (fractional_rule (1 # 1000) (fun _ _ => true) [true]) (1 # 1000) (1 # 5) 200 100 1 (mkCols [Fin 0] [Fin 3]) [3 # 2] [3 # 2] 10 [7]
  = Ok (mkDR true 2 [2] [mkCols [Fin 2] [Fin 3]; mkCols [Fin 0] [Fin 1]]).
Proof. split; [repeat split|]. split; [exact S3_honest|]. vm_compute. reflexivity. Qed.

(** ** C85 *)
(** With an integer variable that has an infinite bound a dive may go on for ever, even with
    a solver that stays inside the bounds. *)
Theorem C85_refuted : ~ C85_full.
Proof. exact C85_unbounded. Qed.
Print Assumptions C85_refuted.
Theorem C85_partial : C85_claim bounded_ints.
Proof. exact dive_ends. Qed.
Print Assumptions C85_partial.
Example C85_example : exists N, forall fuel, (N <= fuel)%nat -> exists r,
  dive fuel p3 S3 (fractional_rule (1 # 1000) (fun _ _ => true) [true]) (1 # 1000) (1 # 5) 200 100 1 (mkCols [Fin 0] [Fin 3]) [3 # 2] [3 # 2] 10 [7] = Ok r.
Proof.
  apply C85_partial.
  - repeat split.
  - intros x L. exact L.
  - lra.
  - exact S3_honest.
  - exact (fractional_picks (1 # 1000) (fun _ _ => true) p3).
  - intros [|[|i]] H; try discriminate H. split; eexists; reflexivity.
  - split; repeat constructor; simpl; lra.
  - reflexivity.
  - intros [|i] H; simpl in H; [|lia]. exists 0. simpl. split; [exact Logic.I|lra].
Qed.

(** ** C86 *)
Theorem C86_fractional_rule : forall tol coin ints it b x,
  length x = length ints -> length (k_lo b) = length ints -> length (k_up b) = length ints ->
  exists best, fractional_rule tol coin ints it b x = Ok best /\
  match best with
  | None => forall i up, candidate tol ints x i -> ~ can_round b x i up
  | Some (j, up) => candidate tol ints x j /\ can_round b x j up /\
      forall i up', candidate tol ints x i -> can_round b x i up' -> dist x j up <= dist x i up'
  end.
Proof. exact fractional_rule_ok. Qed.
Print Assumptions C86_fractional_rule.
Example C86_example :
  fractional_rule (1 # 1000) (fun _ _ => true) [true; false; true; true] 0 (mkCols [Fin 0; Fin 0; Fin (2 # 10); Fin 0] [Fin 9; Fin 9; Fin 9; Fin 9])
    [13 # 10; 1 # 2; 1 # 10; 38 # 10] = Ok (Some (3%nat, true)).
Proof. vm_compute. reflexivity. Qed.

(** ** C87 *)
(** False for a Jacobian whose entries are not grouped by column. *)
Theorem C87_refuted : ~ C87_full.
Proof. exact C87_false. Qed.
Print Assumptions C87_refuted.
(** True when the entries of each column stand together, every integer variable occurs in
    some constraint, and integer variables have integer bounds. *)
Theorem C87_partial : C87_claim (fun ints js b _ => grouped js /\ (forall i, nth i ints false = true -> In i js) /\ integer_bounds ints b).
Proof. exact vectorLength_ok. Qed.
Print Assumptions C87_partial.
Example C87_example : grouped [0; 0; 1]%nat /\
  vectorLength_rule (1 # 1000) [true; true] [0; 0; 1]%nat (fun _ => [2; 3 # 2]) 0 (mkCols [Fin 0; Fin 0] [Fin 1; Fin 1]) [1 # 2; 1 # 2] = Ok (Some (0%nat, true)).
Proof.
  split; [|vm_compute; reflexivity]. intros a j m c E.
  destruct a as [|a0 [|a1 [|a2 a]]]; simpl in E.
  - destruct m as [|m0 [|m1 m]]; simpl in E; [constructor| |].
    + injection E as <- E1 E2 E3. congruence.
    + injection E as <- E1 E2 E3. destruct m; discriminate.
  - destruct m as [|m0 m]; simpl in E; [constructor|]. injection E as E0 <- E1 E2. destruct m; discriminate.
  - injection E as E0 E1 <- E2. destruct m; discriminate.
  - injection E as E0 E1 E2 E3. destruct a; discriminate.
Qed.
(** The two other ways out of the conditions: an integer variable that occurs in no
    constraint has no length (the array is read before it is written), and one without an
    integer between its bounds is rounded out of them. *)
Example C87_no_occurrence :
  vectorLength_rule (1 # 1000) [true] [] (fun _ => [1]) 0 (mkCols [Fin 0] [Fin 1]) [1 # 2] = Uninit.
Proof. vm_compute. reflexivity. Qed.
Example C87_no_integer :
  vectorLength_rule (1 # 1000) [true] [0%nat] (fun _ => [0]) 0 (mkCols [Fin (1 # 4)] [Fin (3 # 4)]) [1 # 2] = Ok (Some (0%nat, false)).
Proof. vm_compute. reflexivity. Qed.
