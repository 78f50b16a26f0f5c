(** What is expected of set-up objects, said without the functions of the model. *)
From Verif Require Import Base.
From Verif Require Import Sob_Model.

(** * Sources of options *)
Section Sources.
Variables O T K F : Type.
Variable fresh : O.
Variable rdst : O -> T -> O * bool.
Variable setk : O -> K -> O.
Variable wants : O -> bool.
Variable nothing : T.
Variable fs : F -> option T.
Variable dflt : F.
Notation op := (sop O T K F).
Notation step := (sstep O T K F fresh rdst setk wants nothing fs dflt).
Notation run := (srun O T K F fresh rdst setk wants nothing fs dflt).

(** The contents a set-up has: those of its list, or those of a new list. *)
Definition contents (s : src O) : O := match q_o s with Some o => o | None => fresh end.

(** Asked to read a named file, a set-up has read it or says that it could not. *)
Definition file_read (s : src O) (f : F) (r : outcome (src O * bool)) : Prop :=
  match fs f with
  | Some t => exists s', r = Ok (s', negb (snd (rdst (contents s) t))) /\ q_o s' = Some (fst (rdst (contents s) t))
  | None => exists s', r = Ok (s', true)
  end.
Definition C287_full : Prop := forall s f, file_read s f (step s (SFile (Some f))).

(** The calls of a program with what they reported. *)
Fixpoint calls (s : src O) (ops : list op) : outcome (src O * list (op * bool)) :=
  match ops with
  | [] => Ok (s, [])
  | o :: ops => do ' (s, b) <- step s o; do ' (s, tr) <- calls s ops; Ok (s, (o, b) :: tr)
  end.
(** A call after which the set-up has options that were read. *)
Definition has_read (c : op * bool) : bool :=
  negb (snd c) &&
  match fst c with
  | SFile (Some f) => match fs f with Some _ => true | None => false end
  | SFile None | SDefault | SString _ | SUse | SAmpl | SUseNlp _ => true
  | SInit | SSet _ | SGive _ => false
  end.
(** The default file is read if, and only if, no options were read before. *)
Definition C288_full : Prop :=
  forall ops s tr, calls src_new ops = Ok (s, tr) ->
    exists s' b, step s SDefault = Ok (s', b) /\
      contents s' = (if existsb has_read tr then contents s
                     else match fs dflt with Some t => fst (rdst (contents s) t) | None => contents s end).

(** What a program adds to the options, in order; [have]: options were read before. *)
Fixpoint texts (have : bool) (ops : list op) : list (T + K) :=
  match ops with
  | [] => []
  | SSet k :: ops => inr k :: texts have ops
  | SString t :: ops => inl t :: texts true ops
  | SFile (Some f) :: ops => match fs f with Some t => [inl t] | None => [] end ++ texts true ops
  | SFile None :: ops => inl nothing :: texts true ops
  | SDefault :: ops | SUse :: ops | SAmpl :: ops =>
      (if have then [] else match fs dflt with Some t => [inl t] | None => [] end) ++ texts true ops
  | SInit :: ops | SGive _ :: ops => texts have ops
  | SUseNlp _ :: ops => texts true ops
  end.
Definition add (o : O) (x : T + K) : O := match x with inl t => fst (rdst o t) | inr k => setk o k end.
Definition all_in_order (ops : list op) (o : O) : O := fold_left add (texts false ops) o.
(** Calls that replace the list of options. *)
Definition replaces (o : op) : bool := match o with SInit | SUseNlp _ | SGive _ => true | _ => false end.
(** No call reported an error. *)
Definition quiet (tr : list (op * bool)) : Prop := Forall (fun c => snd c = false) tr.
(** What was asked for before the problem was given is in force afterwards, for a problem given
    directly and for one given as an interface with its own options. *)
Definition C289_full : Prop :=
  forall ops s tr, calls src_new ops = Ok (s, tr) -> quiet tr -> forallb (fun o => negb (replaces o)) ops = true ->
    contents s = all_in_order ops fresh /\
    forall o s' b, step s (SUseNlp o) = Ok (s', b) -> contents s' = all_in_order ops o.

(** The documentation is printed at most once. *)
Definition C290_full : Prop := forall ops s, run src_new ops = Ok s -> (q_doc s <= 1)%nat.
End Sources.

(** * Copies *)
Definition object (h : heap) (p : nat) : option nat :=
  match nth_error h p with Some (Some c) => Some (e_what c) | _ => None end.
Definition object_o (h : heap) (p : option nat) : option nat := match p with Some p => object h p | None => None end.
Definition list_of (w : world) (q : option nat) : option (list Z) := match q with Some q => nth_error (w_ol w) q | None => None end.
(** The option list that the NLP solver of a set-up uses. *)
Definition solver_list (w : world) (u : setup) : option (list Z) :=
  match u_nls u with
  | Some n => match nth_error (w_h w) n with Some (Some c) => list_of w (e_opt c) | _ => None end
  | None => None
  end.
Definition at_ (w : world) (i : nat) (u : setup) : Prop := nth_error (w_su w) i = Some (Some u).

(** No program can make a set-up use or delete an object that was deleted. *)
Definition C291_full : Prop := forall ops, wrun w0 ops <> Dangling.
(** Set-ups are copied only while they have no objects of their own. *)
Definition copied (o : wop) : option nat :=
  match o with WCopy i | WCopyNlp i _ | WCopyPre i _ _ _ => Some i | _ => None end.
Fixpoint no_objects_copied (w : world) (ops : list wop) : Prop :=
  match ops with
  | [] => True
  | o :: ops =>
      (forall i u, copied o = Some i -> at_ w i u -> u_ob u = []) /\
      forall w', wstep w o = Ok w' -> no_objects_copied w' ops
  end.

(** What a set-up is made of: solvers, cut generators with their frequency, heuristics, branching
    method, objects, parameters, options, prefix. *)
Definition same_parts (w : world) (u u' : setup) : Prop :=
  object_o (w_h w) (u_nls u') = object_o (w_h w) (u_nls u) /\
  object_o (w_h w) (u_cts u') = object_o (w_h w) (u_cts u) /\
  map (fun g => (fst g, object (w_h w) (snd g))) (u_cg u') = map (fun g => (fst g, object (w_h w) (snd g))) (u_cg u) /\
  object_o (w_h w) (u_br u') = object_o (w_h w) (u_br u) /\
  map (object (w_h w)) (u_ob u') = map (object (w_h w)) (u_ob u) /\
  u_par u' = u_par u /\ u_pref u' = u_pref u /\ list_of w (u_opt u') = list_of w (u_opt u).
Definition same_heuristics (w : world) (u u' : setup) : Prop :=
  map (object (w_h w)) (u_heu u') = map (object (w_h w)) (u_heu u).
(** A copy is made of the same parts as the original, which is left as it was. *)
Definition C292_full : Prop :=
  forall ops w i u w', wrun w0 ops = Ok w -> at_ w i u -> wstep w (WCopy i) = Ok w' ->
    at_ w' i u /\ exists u', at_ w' (length (w_su w)) u' /\ same_parts w' u u' /\ same_heuristics w' u u'.
(** When the search of the original runs on the NLP solver itself, that of the copy does too. *)
Definition C293_full : Prop :=
  forall ops w i u w' u', wrun w0 ops = Ok w -> at_ w i u -> wstep w (WCopy i) = Ok w' ->
    at_ w' (length (w_su w)) u' -> (u_cts u' = u_nls u' <-> u_cts u = u_nls u).
(** A set-up can be copied at any time, with its problem or onto another. *)
Definition C294_full : Prop :=
  forall ops w i u, wrun w0 ops = Ok w -> at_ w i u ->
    (exists w', wstep w (WCopy i) = Ok w') /\
    (u_nls u <> None -> forall v, exists w', wstep w (WCopyNlp i v) = Ok w').
(** An option set on a set-up is set for its NLP solver. *)
Definition C295_full : Prop :=
  forall ops w i u l w', wrun w0 ops = Ok w -> at_ w i u -> wstep w (WOpt i l) = Ok w' ->
    solver_list w u <> None -> solver_list w' u = Some l.
(** For each set-up: it was not copied since its problem was given. *)
Fixpoint setb (i : nat) (l : list bool) : list bool :=
  match l, i with [], _ => [] | _ :: l, O => true :: l | b :: l, S i => b :: setb i l end.
Definition linked1 (l : list bool) (o : wop) : list bool :=
  match o with
  | WNew _ => l ++ [true]
  | WInit i _ _ | WFrom i _ _ => setb i l
  | WCopy _ | WCopyNlp _ _ | WCopyPre _ _ _ _ => l ++ [false]
  | _ => l
  end.
Definition linked (ops : list wop) (i : nat) : bool := nth i (fold_left linked1 ops []) false.
(** An option set on one set-up changes nothing for another one. *)
Definition C296_full : Prop :=
  forall ops w i j v l w', wrun w0 ops = Ok w -> i <> j -> at_ w j v -> wstep w (WOpt i l) = Ok w' ->
    at_ w' j v /\ list_of w' (u_opt v) = list_of w (u_opt v) /\ solver_list w' v = solver_list w v.
