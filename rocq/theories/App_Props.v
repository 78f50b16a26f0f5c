(** C338-C340: the programs and the life of a C interface problem. *)
From Coq Require Import List Bool Arith Lia.
From Verif Require Import Base Io_Model Io_Proofs App_Model App_Spec.
Import ListNotations.

(** ** C338 *)
Theorem C338_refuted : ~ C338_full.
Proof.
  intro H. destruct (H 2 Unsolved (Exit 0, true) ltac:(lia) eq_refl) as [A _].
  specialize (A eq_refl). discriminate A.
Qed.
Print Assumptions C338_refuted.

(** The status is 0 unless the exception is of a type not listed, then the process is terminated;
    what tells a failure from a success is that something was written on the error stream. *)
Theorem C338_partial : forall argc run, (1 < argc)%nat ->
  exists r, bonmin_main argc run = Ok r /\ (fst r = Exit 0 <-> run <> OtherEx) /\ (snd r = false <-> run = Done).
Proof.
  intros argc run L. unfold bonmin_main. apply Nat.ltb_lt in L. rewrite L.
  destruct run; (eexists; split; [reflexivity|]); cbn [fst snd]; (split; split; congruence).
Qed.
Print Assumptions C338_partial.
Example C338_ex : bonmin_main 2 Done = Ok (Exit 0, false) /\ bonmin_main 2 Coin = Ok (Exit 0, true) /\ bonmin_main 2 OtherEx = Ok (Terminated, true).
Proof. auto. Qed.

(** ** C339 *)
Theorem C339_refuted : ~ C339_full.
Proof. intro H. destruct (H 1 Done Done ltac:(lia)) as [_ B]. apply B. reflexivity. Qed.
Print Assumptions C339_refuted.

(** With the name of a problem both are safe; without it the node solver always fails, bonmin only when
    an exception of another type is to be reported. *)
Theorem C339_partial : forall argc init run,
  ((1 < argc)%nat -> exists r s, bonmin_main argc run = Ok r /\ node_main argc init run = Ok s) /\
  (argc = 1%nat -> node_main argc init run = NullDeref /\ (bonmin_main argc run = NullDeref <-> run = OtherEx)).
Proof.
  intros argc init run. split.
  - intro L. unfold bonmin_main, node_main. assert (A : Nat.ltb 1 argc = true) by (apply Nat.ltb_lt; exact L).
    assert (B : Nat.leb argc 1 = false) by (apply Nat.leb_gt; exact L). rewrite A, B.
    destruct run, init; eexists; eexists; split; reflexivity.
  - intros ->. split; [reflexivity|]. destruct run; vm_compute; split; intro X; solve [reflexivity | discriminate X].
Qed.
Print Assumptions C339_partial.
Example C339_ex : node_main 3 Done Coin = Ok (Exit 0, true) /\ node_main 1 Done Done = NullDeref.
Proof. auto. Qed.

(** ** C340 *)
Theorem C340_refuted : ~ C340_full.
Proof. intro H. specialize (H 1 [Solve true false false false] ltac:(lia)). vm_compute in H. discriminate H. Qed.
Print Assumptions C340_refuted.

Lemma new_all : forall m mg ml mu,
  filter (fun a => negb (existsb (fun b => match a, b with LX, LX | LLam, LLam | LZL, LZL | LZU, LZU | LVT, LVT | LVL, LVL | LCL, LCL => true | _, _ => false end) (solve_del m)))
    (solve_new m mg ml mu) = solve_new m mg ml mu.
Proof. intros. unfold solve_new. destruct mg, ml, mu, (Nat.ltb 0 m); reflexivity. Qed.

Lemma calls_ok : forall m cs s, mem_inv m (s_prob s) ->
  exists s', do_calls m s cs = Ok s' /\ mem_inv m (s_prob s') /\
    length (s_loc s') = (length (s_loc s) + fold_right (fun c n => per_solve m c + n) 0 cs)%nat /\
    (forall l, In l (s_loc s) -> In l (s_loc s')).
Proof.
  induction cs as [|c cs IH]; intros s I; cbn [do_calls fold_right].
  - exists s. split; [reflexivity|]. split; [exact I|]. split; [lia | auto].
  - destruct c as [x g | [] mg ml mu]; cbn [do_call per_solve].
    + destruct (mem_step m (x, g) (s_prob s) I) as (p & E & J). rewrite E. cbn [bind].
      destruct (IH (Store p (s_loc s) (s_next s)) J) as (s' & A & B & C & D). exists s'. auto.
    + rewrite new_all. cbn [bind].
      match goal with |- context [do_calls m ?t cs] => destruct (IH t I) as (s' & A & B & C & D) end.
      exists s'. split; [exact A|]. split; [exact B|]. split.
      * rewrite C. cbn [s_loc]. rewrite app_length, map_length.
        assert (N : length (solve_new m mg ml mu) = per_solve m (Solve true mg ml mu))
          by (unfold solve_new, per_solve; destruct mg, ml, mu, (Nat.ltb 0 m); reflexivity).
        rewrite N. cbn [per_solve]. lia.
      * intros l L. apply D. cbn [s_loc]. apply in_or_app. left. exact L.
    + cbn [bind]. destruct (IH s I) as (s' & A & B & C & D). exists s'. auto.
Qed.

(** Nothing is released twice; every solve leaves its three to seven arrays behind, and nothing else is left when
    there is a constraint (without constraints one array of the problem, C74). *)
Theorem C340_partial : forall m cs,
  exists left, life m cs = Ok (if Nat.ltb 0 m then [] else [Bcl], left) /\
    length left = fold_right (fun c n => per_solve m c + n)%nat 0%nat cs /\
    (left = [] <-> forall c, In c cs -> per_solve m c = 0%nat).
Proof.
  intros m cs. unfold life.
  destruct (calls_ok m cs (Store (mem_create m) [] 0)) as (s & E & I & L & _); [left; repeat split|].
  rewrite E. cbn [bind]. rewrite (mem_free_ok m _ I). cbn [bind]. exists (s_loc s). split; [reflexivity|].
  cbn [s_loc length Nat.add] in L. split; [exact L|]. split.
  - intros N c C. rewrite N in L. cbn in L. clear -L C. induction cs as [|d cs IH]; [destruct C|].
    cbn [fold_right] in L. destruct C as [-> | C]; [lia | apply IH; [lia | exact C]].
  - intro N. assert (Z : fold_right (fun c n => per_solve m c + n)%nat 0%nat cs = 0%nat).
    { clear -N. induction cs as [|d cs IH]; [reflexivity|]. cbn [fold_right]. rewrite (N d (or_introl eq_refl)).
      apply IH. intros c C. apply N. right. exact C. }
    rewrite Z in L. destruct (s_loc s); [reflexivity | discriminate L].
Qed.
Print Assumptions C340_partial.
Example C340_ex : life 2 [Scaling true false; Solve true false false false; Solve false true true true; Solve true true false false] =
  Ok ([], [(0, LX); (0, LVT); (0, LVL); (0, LCL); (1, LX); (1, LLam); (1, LVT); (1, LVL); (1, LCL)]%nat).
Proof. reflexivity. Qed.
