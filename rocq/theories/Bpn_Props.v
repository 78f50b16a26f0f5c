(** C341-C345: start of the processes, nodes and cuts of the parallel program. *)
From Coq Require Import List Bool Arith ZArith QArith Ascii Lia Lqa.
From Verif Require Import Base Arr Bpn_Model Bpn_Spec.
Import ListNotations.
Open Scope nat_scope.

(** ** C341 *)
Lemma read_file_ok : forall b, read_file (Some b) = Ok b.
Proof.
  intro b. unfold read_file. rewrite firstn_all2 by lia.
  replace (Nat.leb (List.length b) (S (S (List.length b)))) with true by (symmetry; apply Nat.leb_le; lia). reflexivity.
Qed.
Lemma sent_ok : forall i n, sent i n = Ok (c_str (content i), c_str n).
Proof.
  intros i n. unfold sent, read_ipopt. destruct i as [i|]; cbn [option_map content]; rewrite ?read_file_ok; cbn [bind];
    rewrite ?read_file_ok; reflexivity.
Qed.
Lemma c_str_spec : forall s, cut_at_zero (c_str s) s.
Proof.
  induction s as [|c s [N R]]; cbn [c_str].
  - split; [intros [] | left; reflexivity].
  - destruct (Ascii.eqb c zero) eqn:E.
    + apply Ascii.eqb_eq in E. subst c. split; [intros [] | right; exists s; reflexivity].
    + apply Ascii.eqb_neq in E. split.
      * intros [X | X]; [exact (E X) | exact (N X)].
      * destruct R as [R | [r R]]; [left; rewrite R at 1; reflexivity | right; exists r; rewrite R at 1; reflexivity].
Qed.
Lemma c_str_id : forall s, c_str s = s <-> ~ In zero s.
Proof.
  intro s. destruct (c_str_spec s) as [N R]. split; intro H.
  - rewrite H in N. exact N.
  - destruct R as [R | [r R]]; [symmetry; exact R|]. exfalso. apply H. rewrite R. apply in_or_app. right. left. reflexivity.
Qed.

Theorem C341_refuted : ~ C341_full.
Proof.
  intro H. specialize (H None ["b"%char; zero; "x"%char]). rewrite sent_ok in H. vm_compute in H. discriminate H.
Qed.
Print Assumptions C341_refuted.

(** The process gets each file up to its first zero byte, hence the file exactly when there is none; a missing file
    stops the run. *)
Theorem C341_partial : forall ipopt nl,
  (exists i n, sent ipopt nl = Ok (i, n) /\ cut_at_zero i (content ipopt) /\ cut_at_zero n nl) /\
  (sent ipopt nl = Ok (content ipopt, nl) <-> ~ In zero (content ipopt) /\ ~ In zero nl) /\
  (forall i, read_ipopt i None = Thrown) /\ (forall n, read_ipopt (Some None) n = Thrown).
Proof.
  intros i n. rewrite sent_ok. split; [|split; [|split]].
  - exists (c_str (content i)), (c_str n). split; [reflexivity|]. split; apply c_str_spec.
  - rewrite <- !c_str_id. split.
    + intro H. injection H as A B. split; assumption.
    + intros [A B]. rewrite A, B. reflexivity.
  - intros [[f|]|]; unfold read_ipopt; rewrite ?read_file_ok; reflexivity.
  - reflexivity.
Qed.
Print Assumptions C341_partial.
Example C341_ex : sent (Some ["a"%char]) ["g"%char; "3"%char] = Ok (["a"%char], ["g"%char; "3"%char]) /\
  sent None ["b"%char; zero; "x"%char] = Ok ([], ["b"%char]).
Proof. split; reflexivity. Qed.

(** ** C342 *)
Lemma build_ints_ok : forall isint i lo up plo pup, List.length lo = List.length isint -> List.length up = List.length isint ->
  List.length plo = i -> List.length pup = i ->
  exists ints, build_ints i isint lo up = Ok ints /\
    map (fun o => match o with BInt c l u => (c, Some l, Some u) | BSos k => (k, None, None) end) ints =
    map (fun j => (j, nth_error (plo ++ lo) j, nth_error (pup ++ up) j)) (filter (fun j => nth (j - i) isint false) (seq i (List.length isint))).
Proof.
  induction isint as [|b isint IH]; intros i lo up plo pup L U P1 P2.
  - exists []. split; reflexivity.
  - destruct lo as [|l lo]; [discriminate L|]. destruct up as [|u up]; [discriminate U|].
    injection L as L. injection U as U.
    destruct (IH (S i) lo up (plo ++ [l]) (pup ++ [u]) L U) as (r & E & M).
    { rewrite app_length, P1. cbn. lia. } { rewrite app_length, P2. cbn. lia. }
    rewrite <- !app_assoc in M. cbn [app] in M. cbn [build_ints]. rewrite E. cbn [bind].
    exists (if b then BInt i l u :: r else r). split; [reflexivity|].
    set (f := fun j => nth (j - i) (b :: isint) false).
    assert (F : filter f (seq (S i) (List.length isint)) =
                filter (fun j => nth (j - S i) isint false) (seq (S i) (List.length isint))).
    { apply filter_ext_in. intros j J. apply in_seq in J. unfold f. replace (j - i) with (S (j - S i)) by lia. reflexivity. }
    assert (Fi : f i = b) by (unfold f; replace (i - i) with 0 by lia; reflexivity).
    cbn [List.length seq filter]. rewrite F, Fi. destruct b; cbn [map]; rewrite M; [|reflexivity]. f_equal.
    rewrite !nth_error_app2 by lia. rewrite P1, P2. replace (i - i) with 0 by lia. reflexivity.
Qed.

Lemma reset_ok : forall lo up rest js ints n,
  (forall j, In j js -> j < n) -> List.length lo = n -> List.length up = n ->
  (match rest with BInt _ _ _ :: _ => False | _ => True end) ->
  map (fun o => match o with BInt c _ _ => (c, true) | BSos k => (k, false) end) ints = map (fun j => (j, true)) js ->
  exists r, reset_objs lo up (ints ++ rest) = Ok (r ++ rest) /\
    map (fun o => match o with BInt c l u => (c, Some l, Some u) | BSos k => (k, None, None) end) r =
    map (fun j => (j, nth_error lo j, nth_error up j)) js.
Proof.
  intros lo up rest js. induction js as [|j js IH]; intros ints n B L U R M.
  - destruct ints; [|discriminate M]. exists []. split; [|reflexivity]. cbn [app]. destruct rest as [|[]]; try reflexivity. destruct R.
  - destruct ints as [|o ints]; [discriminate M|]. cbn [map] in M. injection M as M1 M2.
    destruct o as [c l u | k]; [|discriminate M1]. injection M1 as ->.
    assert (J : j < n) by (apply B; left; reflexivity).
    destruct (nth_error lo j) as [a|] eqn:A; [|apply nth_error_None in A; lia].
    destruct (nth_error up j) as [b|] eqn:A'; [|apply nth_error_None in A'; lia].
    destruct (IH ints n) as (r & E & F); auto. { intros x X. apply B. right. exact X. }
    cbn [app reset_objs]. rewrite A, A', E. cbn [bind]. exists (BInt j a b :: r). split; [reflexivity|].
    cbn [map]. rewrite F, A, A'. reflexivity.
Qed.

Lemma forget : forall ints lo up js,
  (forall j, In j js -> j < List.length lo /\ j < List.length up) ->
  map (fun o => match o with BInt c l u => (c, Some l, Some u) | BSos k => (k, None, None) end) ints =
    map (fun j => (j, nth_error lo j, nth_error up j)) js ->
  map (fun o => match o with BInt c _ _ => (c, true) | BSos k => (k, false) end) ints = map (fun j => (j, true)) js.
Proof.
  induction ints as [|o ints IH]; intros lo up js B M; destruct js as [|j js]; try discriminate M; [reflexivity|].
  cbn [map] in *. injection M as M1 M2.
  rewrite (IH lo up js) ; [|intros x X; apply B; right; exact X | exact M2].
  destruct (B j (or_introl eq_refl)) as [X Y].
  destruct o as [c l u | k]; [injection M1 as -> _ _; reflexivity|].
  injection M1 as _ M1 _. symmetry in M1. apply nth_error_None in M1. lia.
Qed.

Lemma js_bound : forall isint n, List.length isint = n ->
  forall j, In j (filter (fun j => nth j isint false) (seq 0 (List.length isint))) -> j < n.
Proof. intros isint n L j J. apply filter_In in J. destruct J as [J _]. apply in_seq in J. lia. Qed.

Lemma start_ok : forall isint lo up sos p l u n, List.length isint = n -> bounds_ok n (lo, up) -> bounds_ok n (l, u) ->
  described isint lo up sos (n_objs p) ->
  exists q, node_start false l u p = Ok q /\ n_lo q = l /\ n_up q = u /\ l_objs q = n_objs q /\ described isint l u sos (n_objs q).
Proof.
  intros isint lo up sos p l u n LI [L1 L2] [B1 B2] (ints & E & M). cbn [fst snd] in *.
  pose proof (js_bound isint n LI) as J.
  destruct (reset_ok l u (map BSos (seq 0 sos)) _ ints n J B1 B2) as (r & R & F).
  - destruct sos; exact I.
  - apply (forget ints lo up); [|exact M]. intros j X. specialize (J j X). lia.
  - unfold node_start. rewrite E, R. cbn [bind]. eexists. split; [reflexivity|]. cbn [n_lo n_up n_objs l_objs].
    split; [reflexivity|]. split; [reflexivity|]. split; [reflexivity|]. exists r. split; [reflexivity | exact F].
Qed.

Lemma last_irr : forall A (l : list A) x y a b, last (x :: l) a = last (y :: x :: l) b.
Proof. intros A l. induction l as [|z l IH]; intros x y a b; [reflexivity|]. exact (IH z x a b). Qed.

(** From the objects built at the start, over any number of nodes: the NLP has the bounds of the last node, and
    both solvers have one object for each integer column, in order and with these bounds, and the SOS after them unless they are
    disregarded, as they are in the program as it is. *)
Theorem C342_node : forall (dis : bool) isint lo up sets bs n,
  List.length isint = n -> bounds_ok n (lo, up) -> Forall (bounds_ok n) bs ->
  let sos := if dis then 0%nat else sets in
  exists os p, build_objs dis isint lo up sets = Ok os /\ described isint lo up sos os /\
    nodes false bs (Proc lo up os os) = Ok p /\
    (n_lo p, n_up p) = last bs (lo, up) /\ l_objs p = n_objs p /\
    described isint (n_lo p) (n_up p) sos (n_objs p).
Proof.
  intros dis isint lo up sets bs n LI B0 BS sos.
  destruct B0 as [L1 L2]. cbn [fst snd] in L1, L2.
  destruct (build_ints_ok isint 0 lo up [] []) as (ints & E & M); try lia; try reflexivity.
  assert (D : described isint lo up sos (ints ++ map BSos (seq 0 sos))).
  { exists ints. split; [reflexivity|]. rewrite M. cbn [app]. f_equal. apply filter_ext. intro j. rewrite Nat.sub_0_r. reflexivity. }
  exists (ints ++ map BSos (seq 0 sos)).
  assert (G : forall bs p, Forall (bounds_ok n) bs -> l_objs p = n_objs p -> bounds_ok n (n_lo p, n_up p) ->
    described isint (n_lo p) (n_up p) sos (n_objs p) ->
    exists q, nodes false bs p = Ok q /\ (n_lo q, n_up q) = last bs (n_lo p, n_up p) /\ l_objs q = n_objs q /\
      described isint (n_lo q) (n_up q) sos (n_objs q)).
  { clear - LI. induction bs as [|[l u] bs IH]; intros p F P B D.
    - exists p. auto.
    - cbn [nodes]. destruct (start_ok isint (n_lo p) (n_up p) sos p l u n LI B (Forall_inv F) D) as (q & S1 & A1 & A2 & A3 & A4).
      rewrite S1. cbn [bind]. subst l u.
      destruct (IH q (Forall_inv_tail F) A3 (Forall_inv F) A4) as (z & Z1 & Z2 & Z3 & Z4). exists z.
      split; [exact Z1|]. split; [|auto]. rewrite Z2. destruct bs as [|b bs]; [reflexivity|]. apply last_irr. }
  destruct (G bs (Proc lo up (ints ++ map BSos (seq 0 sos)) (ints ++ map BSos (seq 0 sos))) BS eq_refl (conj L1 L2) D) as (q & Q1 & Q2 & Q3 & Q4).
  exists q. split; [unfold build_objs, sos; rewrite E; cbn [bind]; destruct dis; reflexivity|]. auto.
Qed.
Print Assumptions C342_node.
Example C342_ex : nodes false [([0; 1; 0], [5; 5; 5])%Q; ([2; 1; 0], [5; 4; 1])%Q] (Proc [0; 0; 0]%Q [5; 5; 5]%Q [BInt 0 0 5; BInt 2 0 5; BSos 0] [])
  = Ok (Proc [2; 1; 0]%Q [5; 4; 1]%Q [BInt 0 2 5; BInt 2 0 1; BSos 0] [BInt 0 2 5; BInt 2 0 1; BSos 0]).
Proof. reflexivity. Qed.

(** ** C343 *)
Theorem C343_refuted : ~ C343_full.
Proof.
  intro H. specialize (H (-5)%Z 0%nat (1 # 2)%Q [] ltac:(split; unfold Qle, Qlt; cbn; lia)). vm_compute in H. discriminate H.
Qed.
Print Assumptions C343_refuted.

(** A generator is asked at every node when its frequency is positive (for 1: unless exactly 0 is drawn) and never,
    not even at the root, when it is negative; the node plays no role. *)
Theorem C343_partial : forall k d cs, draw_ok d ->
  (asked (Gen k d cs) = true <-> (1 < k)%Z \/ (k = 1%Z /\ (0 < d)%Q)) /\
  ((-99 <= k < 0)%Z -> documented k 0 = true /\ asked (Gen k d cs) = false) /\
  ((1 < k)%Z -> forall m, (0 < m < Z.abs_nat k)%nat -> documented k m = false /\ asked (Gen k d cs) = true).
Proof.
  intros k d cs [D0 D1].
  assert (A : asked (Gen k d cs) = true <-> (1 < k)%Z \/ (k = 1%Z /\ (0 < d)%Q)).
  { unfold asked. cbn [g_freq g_draw]. rewrite Qltb_lt. split.
    - intro H. destruct (Z.lt_trichotomy k 1) as [X | [X | X]].
      + exfalso. assert (Y : (inject_Z k <= inject_Z 0)%Q) by (rewrite <- Zle_Qle; lia). cbn in Y. change (inject_Z 0) with 0%Q in Y. lra.
      + right. split; [exact X|]. subst k. change (inject_Z 1) with 1%Q in H. lra.
      + left. exact X.
    - intros [X | [X Y]].
      + assert (Z : (inject_Z 2 <= inject_Z k)%Q) by (rewrite <- Zle_Qle; lia). change (inject_Z 2) with 2%Q in Z. lra.
      + subst k. change (inject_Z 1) with 1%Q. lra. }
  split; [exact A|]. split.
  - intro K. split.
    + unfold documented. replace (Z.eqb k 0) with false by (symmetry; apply Z.eqb_neq; lia).
      replace (Z.eqb k 100) with false by (symmetry; apply Z.eqb_neq; lia). cbn [orb].
      destruct (Z.eqb k (-99)); [reflexivity|]. rewrite Nat.mod_0_l by lia. reflexivity.
    + apply not_true_is_false. rewrite A. lia.
  - intros K m M. split; [|apply A; left; exact K]. unfold documented.
    replace (Z.eqb k 0) with false by (symmetry; apply Z.eqb_neq; lia).
    destruct (Z.eqb k 100); cbn [orb]; [reflexivity|].
    replace (Z.eqb k (-99)) with false by (symmetry; apply Z.eqb_neq; lia).
    rewrite Nat.mod_small by lia. apply Nat.eqb_neq. lia.
Qed.
Print Assumptions C343_partial.
Example C343_ex : asked (Gen 3 (1 # 2) []) = true /\ asked (Gen (-99) (1 # 2) []) = false /\ documented 3 1 = false /\ documented (-99) 0 = true.
Proof. repeat split. Qed.

(** ** C344 *)
Lemma run_found : forall gs, run_gens gs = flat_map (fun g => if asked g then g_cuts g else []) gs.
Proof. induction gs as [|g gs IH]; cbn; [reflexivity | rewrite IH; reflexivity]. Qed.
Lemma row_app : forall a b, row_cuts (a ++ b) = row_cuts a ++ row_cuts b.
Proof. intros. unfold row_cuts. rewrite !flat_map_concat_map, map_app, concat_app. reflexivity. Qed.
Lemma to_rows_ok : forall cs, ~ In None cs -> exists r, to_rows cs = Ok r.
Proof.
  induction cs as [|[c|] cs IH]; intro N.
  - eexists; reflexivity.
  - destruct IH as [r E]; [intro X; apply N; right; exact X|]. cbn [to_rows]. rewrite E. eexists; reflexivity.
  - exfalso. apply N. left. reflexivity.
Qed.

Lemma history_ok : forall es pending, Forall good_event es ->
  exists out left, history false es pending = Ok (out, left) /\
    out = map bb_of ((if next_is_round es then row_cuts pending else []) ++ handed es).
Proof.
  induction es as [|e es IH]; intros pending G.
  - exists [], pending. split; reflexivity.
  - pose proof (Forall_inv G) as G0. apply Forall_inv_tail in G. cbn [history]. destruct e as [cs | gs | cs]; cbn [happen bind good_event] in *.
    + destruct (IH (pending ++ cs) G) as (o & l & E & F). rewrite E. cbn [bind]. exists o, l. split; [reflexivity|].
      rewrite F. cbn [handed next_is_round found]. change (flat_map (fun c => match c with Row x => [x] | Col _ => [] end) cs) with (row_cuts cs). destruct (next_is_round es); [|reflexivity].
      rewrite row_app, app_assoc. reflexivity.
    + destruct gs as [|g gs]; [contradiction|]. cbn [generate_cuts bind].
      destruct (IH [] G) as (o & l & E & F). rewrite E. cbn [bind]. eexists; exists l. split; [reflexivity|].
      assert (F' : o = map bb_of (handed es)) by (rewrite F; destruct (next_is_round es); reflexivity).
      rewrite F'. cbn [handed next_is_round]. rewrite <- map_app. f_equal. rewrite row_app, <- app_assoc, run_found. reflexivity.
    + destruct (to_rows_ok cs G0) as [r R]. rewrite R. cbn [bind]. destruct (IH [] G) as (o & l & E & F). rewrite E. cbn [bind].
      exists o, l. split; [reflexivity|]. rewrite F. cbn [handed next_is_round found app]. destruct (next_is_round es); reflexivity.
Qed.

Theorem C344_refuted : ~ C344_full.
Proof.
  intro H. specialize (H [Check [Col 0]; Round [Gen 1 0 []]] [] ltac:(repeat constructor; discriminate) eq_refl). vm_compute in H. discriminate H.
Qed.
Print Assumptions C344_refuted.

Lemma handed_all : forall gs es, (forall cs, ~ In (Expand cs) es) ->
  next_is_round (es ++ [Round gs]) = true /\ handed (es ++ [Round gs]) = row_cuts (flat_map found (es ++ [Round gs])).
Proof.
  intros gs. induction es as [|e es IH]; intro N.
  - split; [reflexivity|]. cbn [app handed next_is_round flat_map]. rewrite !app_nil_r. reflexivity.
  - destruct IH as [A B]; [intros cs X; apply (N cs); right; exact X|].
    assert (C : next_is_round ((e :: es) ++ [Round gs]) = true).
    { destruct e as [cs | g | cs]; cbn [app next_is_round]; [exact A | reflexivity | exfalso; apply (N cs); left; reflexivity]. }
    split; [exact C|]. cbn [app flat_map]. rewrite row_app, <- B. cbn [handed]. change (e :: es ++ [Round gs]) with ((e :: es) ++ [Round gs]).
    rewrite C. reflexivity.
Qed.
Lemma rows_id : forall l, (forall c, In c l -> exists r, c = Row r) -> map Row (row_cuts l) = l.
Proof.
  induction l as [|c l IH]; intro H; [reflexivity|]. destruct (H c (or_introl eq_refl)) as [r ->].
  cbn. f_equal. apply IH. intros x X. apply H. right. exact X.
Qed.
Lemma pure_none : forall es p o l, history true es p = Ok (o, l) -> o = [].
Proof.
  induction es as [|e es IH]; intros p o l H; cbn [history] in H.
  - injection H as <- _. reflexivity.
  - destruct e as [cs | gs | cs]; cbn [happen generate_cuts bind] in H.
    + destruct (history true es (p ++ cs)) as [[m q]| | | | | | |] eqn:E; try discriminate H.
      cbn [bind app] in H. injection H as <- _. exact (IH _ _ _ E).
    + destruct (history true es []) as [[m q]| | | | | | |] eqn:E; try discriminate H.
      cbn [bind app] in H. injection H as <- _. exact (IH _ _ _ E).
    + destruct (to_rows cs); try discriminate H. cbn [bind] in H.
      destruct (history true es []) as [[m q]| | | | | | |] eqn:E; try discriminate H.
      cbn [bind app] in H. injection H as <- _. exact (IH _ _ _ E).
Qed.

(** Handed over, each once and in the order they were found, are exactly the row cuts that are not thrown away by an
    expansion of other cuts before the next round, with their bounds; column cuts are lost.  Without expansions and
    column cuts, after a round everything found is handed over.  In pure branch-and-bound nothing is. *)
Theorem C344_partial : forall es, Forall good_event es ->
  exists out left, history false es [] = Ok (out, left) /\
    map b_cut out = handed es /\ Forall (fun b => b_lb b = c_lb (b_cut b) /\ b_ub b = c_ub (b_cut b)) out /\
    (forall es0 gs, es = es0 ++ [Round gs] -> (forall cs, ~ In (Expand cs) es0) ->
       (forall c, In c (flat_map found es) -> exists r, c = Row r) -> map as_row out = flat_map found es) /\
    (forall o l, history true es [] = Ok (o, l) -> o = []).
Proof.
  intros es G. destruct (history_ok es [] G) as (out & left & E & F).
  assert (F' : out = map bb_of (handed es)) by (rewrite F; destruct (next_is_round es); reflexivity).
  exists out, left. split; [exact E|]. split; [|split; [|split]].
  - rewrite F', map_map. cbn. apply map_id.
  - rewrite F'. apply Forall_forall. intros b B. apply in_map_iff in B. destruct B as (c & <- & _). split; reflexivity.
  - intros es0 gs -> NE R. rewrite F', map_map. destruct (handed_all gs es0 NE) as [_ H]. rewrite H.
    change (map (fun x => as_row (bb_of x)) (row_cuts (flat_map found (es0 ++ [Round gs])))) with
      (map Row (row_cuts (flat_map found (es0 ++ [Round gs])))). apply rows_id. exact R.
  - intros o l H. exact (pure_none es [] o l H).
Qed.
Print Assumptions C344_partial.

(** The rows handed over with the cuts of a round are those BCP would get by expanding these cuts, and nothing stays
    pending. *)
Theorem C344_rows : forall gs pending cuts rows left,
  generate_cuts false gs pending = Ok (cuts, rows, left) ->
  to_rows (map Some cuts) = Ok rows /\ left = [] /\ List.length cuts = List.length rows.
Proof.
  intros gs pending cuts rows left H. destruct gs as [|g gs]; [discriminate H|]. cbn [generate_cuts] in H. injection H as <- <- <-.
  split; [|split; [reflexivity | rewrite !map_length; reflexivity]].
  enough (X : forall l, to_rows (map Some (map bb_of l)) = Ok (map (fun c => (c_lb c, c_ub c, c_row c)) l)) by apply X.
  induction l as [|c l IH]; [reflexivity|]. cbn [map to_rows]. rewrite IH. reflexivity.
Qed.
Print Assumptions C344_rows.
Example C344_ex : let c k := RowCut 0 k [(1%nat, 2)%Q] in
  history false [Check [Row (c 1%Q); Col 0]; Round [Gen 2 0 [Row (c 2%Q)]; Gen (-1) 0 [Row (c 3%Q)]; Gen 1 0 [Row (c 4%Q)]]; Check [Row (c 5%Q)]; Expand []; Check [Row (c 6%Q)]] []
  = Ok ([bb_of (c 1%Q); bb_of (c 2%Q)], [Row (c 6%Q)]).
Proof. reflexivity. Qed.

(** ** C345 *)
Lemma combine_split : forall (l : list (nat * Q)), combine (map fst l) (map snd l) = l.
Proof. induction l as [|[a b] l IH]; cbn; [reflexivity | rewrite IH; reflexivity]. Qed.
Lemma unpack_one : forall c r, unpack_cut (pack_cut c ++ r) = Ok (with_bounds (- big) big c, r).
Proof.
  intros c r. unfold unpack_cut, pack_cut. cbn [app]. rewrite !map_length, Nat.leb_refl, combine_split.
  destruct c as [l u [a b w]]. reflexivity.
Qed.

(** Any number of cuts in one buffer arrive with their rows and bounds as cuts, in order, and what follows them is
    left.  What BCP keeps as their bounds is not sent: the rows made of them are those of the sender exactly when BCP
    sets these bounds again or they were the defaults. *)
Theorem C345_travel : forall cs rest,
  exists buf, pack_cuts (map Some cs) = Ok buf /\
    unpack_cuts (List.length cs) (buf ++ rest) = Ok (map (with_bounds (- big) big) cs, rest) /\
    map b_cut (map (with_bounds (- big) big) cs) = map b_cut cs /\
    map (fun '(b, s) => with_bounds (b_lb s) (b_ub s) b) (combine (map (with_bounds (- big) big) cs) cs) = cs /\
    (to_rows (map Some (map (with_bounds (- big) big) cs)) = to_rows (map Some cs) <->
     forall c, In c cs -> b_lb c = (- big)%Q /\ b_ub c = big).
Proof.
  induction cs as [|c cs IH]; intro rest.
  - exists []. cbn. repeat apply conj; try reflexivity; intros; solve [reflexivity | contradiction].
  - destruct (IH rest) as (buf & P & U & B & W & R). exists (pack_cut c ++ buf).
    split; [|split; [|split; [|split]]].
    + cbn [map pack_cuts]. rewrite P. reflexivity.
    + cbn [List.length unpack_cuts]. rewrite <- app_assoc, unpack_one. cbn [bind]. rewrite U. reflexivity.
    + cbn [map]. rewrite B. reflexivity.
    + cbn [map combine]. rewrite W. destruct c. reflexivity.
    + assert (T : forall l, exists r, to_rows (map Some l) = Ok r).
      { intro l. apply to_rows_ok. intro X. apply in_map_iff in X. destruct X as (x & X & _). discriminate X. }
      destruct (T (map (with_bounds (- big) big) cs)) as [r1 R1]. destruct (T cs) as [r2 R2].
      cbn [map to_rows]. rewrite R1, R2 in *. cbn [bind].
      split.
      * intro H. injection H as H1 H2 H3. intros x [<- | X]; [split; symmetry; assumption|].
        apply R; [rewrite H3; reflexivity | exact X].
      * intro H. destruct (H c (or_introl eq_refl)) as [X Y]. cbn [with_bounds b_lb b_ub b_cut]. rewrite X, Y.
        assert (Z : r1 = r2) by (assert (E : Ok r1 = Ok r2) by (apply R; intros y I; apply H; right; exact I); injection E as E; exact E).
        rewrite Z. reflexivity.
Qed.
Print Assumptions C345_travel.
(** A cut of another kind cannot be sent. *)
Theorem C345_kind : forall cs, In None cs -> pack_cuts cs = Thrown /\ to_rows cs = Thrown.
Proof.
  induction cs as [|[c|] cs IH]; intro H; [destruct H | | split; reflexivity].
  destruct H as [H | H]; [discriminate H|]. destruct (IH H) as [A B]. cbn [pack_cuts to_rows]. rewrite A, B. split; reflexivity.
Qed.
Print Assumptions C345_kind.
Example C345_ex : let c := RowCut 1 2 [(0%nat, 3); (4%nat, 5)]%Q in
  unpack_cut (pack_cut (bb_of c)) = Ok (BB (- big) big c, []) /\
  to_rows [Some (BB (- big) big c)] <> to_rows [Some (bb_of c)].
Proof. split; [reflexivity | discriminate]. Qed.

(** ** C351 *)
Theorem C351_refuted : ~ C351_full.
Proof.
  intro H. specialize (H [false] [0%Q] [1%Q] 1%nat [] eq_refl 0%nat ltac:(lia)). destruct H.
Qed.
Print Assumptions C351_refuted.
(** The objects are the integer variables, in order, and nothing else; with none the program has nothing to branch on,
    whatever sets there are. *)
Theorem C351_partial : forall isint lo up sos, List.length lo = List.length isint -> List.length up = List.length isint ->
  exists os, build_objs shipped isint lo up sos = Ok os /\ described isint lo up 0 os /\
    ((forall b, In b isint -> b = false) -> os = []).
Proof.
  intros isint lo up sos L U. destruct (C342_node shipped isint lo up sos [] _ eq_refl (conj L U) (Forall_nil _)) as (os & p & B & D & _).
  exists os. split; [exact B|]. split; [exact D|]. intro N. destruct D as (ints & -> & M). cbn [seq map]. rewrite app_nil_r.
  assert (F : forall k, filter (fun j => nth j isint false) (seq k (List.length isint)) = []).
  { generalize (List.length isint) as n. intros n k. revert k. induction n as [|n IH]; intro k; [reflexivity|]. cbn [seq filter].
    assert (Z : nth k isint false = false).
    { destruct (nth_in_or_default k isint false) as [I|E]; [exact (N _ I)|exact E]. }
    rewrite Z. apply IH. }
  rewrite F in M. destruct ints; [reflexivity|discriminate M].
Qed.
Print Assumptions C351_partial.
Example C351_ex : build_objs shipped [true; false; true] [0; 0; 0]%Q [1; 2; 3]%Q 2 = Ok [BInt 0 0 1; BInt 2 0 3].
Proof. reflexivity. Qed.

(** ** C352 *)
Theorem C352_refuted : ~ C352_full.
Proof.
  intro H. specialize (H false [Column true true 0%Q (Fin 0) (Fin 1)] [] 0%nat _ _ ltac:(intros c [<-|[]] _; reflexivity) eq_refl eq_refl).
  destruct H as [_ H]. discriminate H.
Qed.
Print Assumptions C352_refuted.
(** One variable for each column, with its bounds; integer exactly for the integer columns, binary ones included, and
    never binary; objective and rows those of the relaxation, or none for pure branch-and-bound. *)
Theorem C352_partial : forall pure cols rows, columns_ok cols ->
  let '(vs, rs) := core_of pure cols rows in
  List.length vs = List.length cols /\
  (forall i c, nth_error cols i = Some c -> exists v, nth_error vs i = Some v /\ v_lo v = c_lo c /\ v_up v = c_up c /\
     (v_type v = CInt <-> c_int c = true) /\ (v_type v = CCont <-> c_int c = false) /\ v_type v <> CBin /\
     v_obj v = (if pure then 0%Q else c_obj c)) /\
  (pure = true -> rs = None) /\ (pure = false -> rs = Some rows).
Proof.
  intros pure cols rows OKC. unfold core_of. split; [apply map_length|]. split; [|split; intros ->; reflexivity].
  intros i c E. eexists. split; [rewrite nth_error_map, E; reflexivity|]. cbn [v_lo v_up v_type v_obj]. split; [reflexivity|]. split; [reflexivity|].
  pose proof (OKC c (nth_error_In _ _ E)) as B. unfold core_type. destruct (c_int c); destruct (c_bin c); try (discriminate (B eq_refl));
    (split; [split; congruence|]; split; [split; congruence|]; split; [discriminate|reflexivity]).
Qed.
Print Assumptions C352_partial.
Example C352_ex : let cols := [Column true true 1%Q (Fin 0) (Fin 1); Column false false 2%Q MInf PInf] in
  columns_ok cols /\ map v_type (fst (core_of false cols [])) = [CInt; CCont] /\ map v_obj (fst (core_of true cols [])) = [0; 0]%Q.
Proof. split; [intros c [<-|[<-|[]]] B; [reflexivity|discriminate B]|]. split; reflexivity. Qed.

(** ** C353: the pseudo-costs of the tree manager have one place for each object of the workers, with or without the sets. *)
Theorem C353_places : forall dis isint lo up sos os, build_objs dis isint lo up sos = Ok os -> tm_count dis isint sos = List.length os.
Proof.
  intros dis isint lo up sos os B. unfold build_objs in B. apply bind_ok in B. destruct B as (r & B & E). injection E as <-.
  assert (G : forall isint k lo up r, build_ints k isint lo up = Ok r -> tm_objs isint = List.length r).
  { clear. induction isint as [|b isint IH]; intros k lo up r E; cbn [build_ints] in E; [injection E as <-; reflexivity|].
    destruct lo as [|l lo]; [discriminate E|]. destruct up as [|u up]; [discriminate E|]. apply bind_ok in E. destruct E as (q & E & F).
    injection F as <-. cbn [tm_objs]. rewrite (IH _ _ _ _ E). destruct b; reflexivity. }
  unfold tm_count. rewrite app_length, (G _ _ _ _ _ B). destruct dis; [reflexivity|]. rewrite map_length, seq_length. reflexivity.
Qed.
Print Assumptions C353_places.
Example C353_ex : exists os, build_objs false [true; false] [0; 0]%Q [1; 2]%Q 2 = Ok os /\ tm_count false [true; false] 2 = List.length os /\ List.length os = 3%nat.
Proof. eexists. split; [reflexivity|]. split; reflexivity. Qed.
