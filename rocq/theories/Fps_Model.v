(** The configuration of the feasibility problem over the calls of the NLP interface that pose it.
    src/Interfaces/BonOsiTMINLPInterface.cpp 2275-2362: the two switchToFeasibilityProblem and the two
    solveFeasibilityProblem.  What each sets is in Dup_Model.v ([fp_pump], [fp_local]), the functions of the problem posed
    in FP_Model.v. *)
From Verif Require Import Base Arr Nlp FP_Model Dup_Model.
#[local] Open Scope Q_scope.

(** A call: distance objective (switchToFeasibilityProblem 2275-2290, solveFeasibilityProblem 2316-2338), distance objective
    with a cutoff (2341-2364), local branching (2292-2307). *)
Inductive fcall :=
| Pump (inds : list nat) (vals : list Q) (a s : Q) (L : nat)
| PumpCut (inds : list nat) (vals : list Q) (L : nat) (cutoff : Q)
| Local (inds : list nat) (vals : list Q) (rhs : Q).

Definition pose (c : fcall) (f : fp) : outcome fp :=
  match c with
  | Pump i v a s L => fp_pump i v a s L None f
  | PumpCut i v L cut => fp_pump i v 1 0 L (Some cut) f
  | Local i v r => fp_local i v r f
  end.
Fixpoint poses (cs : list fcall) (f : fp) : outcome fp :=
  match cs with [] => Ok f | c :: cs => do f <- pose c f; poses cs f end.
(** The constructor, BonTNLP2FPNLP.cpp 15-32; [sc]: the scaling factor of the objective it is given. *)
Definition fp_new (sc : Q) : fp := mkFp [] [] 1 1 2 sc false false false PInf PInf.
