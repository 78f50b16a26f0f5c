(** Set-up objects: the sources of the options, copies and ownership.
    src/Algorithms/BonBabSetupBase.{hpp,cpp}, src/Algorithms/BonBonminSetup.{hpp,cpp},
    src/Algorithms/Ampl/BonAmplSetup.cpp.

    The list of options is Ipopt's (outside the repository): reading a stream into it, setting one
    option and asking for print_options_documentation are parameters.  The journalist, the
    registration of options and the branching data are not modelled here (see Set, Bbs). *)
From Verif Require Import Base.

(** * Where options come from *)
Section Sources.
(** [O]: contents of an option list; [T]: contents of a stream; [K]: one setting made by the
    program; [F]: names of files.  [rdst o t]: OptionsList::ReadFromStream, the list afterwards and
    whether it came to its end without an exception. *)
Variables O T K F : Type.
Variable fresh : O.
Variable rdst : O -> T -> O * bool.
Variable setk : O -> K -> O.
Variable wants : O -> bool.
Variable nothing : T.
Variable fs : F -> option T.
Variable dflt : F.

(** options_, readOptions_ and how often the documentation was printed. *)
Record src := mkSrc { q_o : option O; q_read : bool; q_doc : nat }.
(** BabSetupBase::BabSetupBase(handler), BonBabSetupBase.cpp 55-74. *)
Definition src_new : src := mkSrc None false 0.
(** initializeOptionsAndJournalist, 646-679: new lists; readOptions_ is left. *)
Definition init_opts (s : src) : src := mkSrc (Some fresh) (q_read s) (q_doc s).
(** The guards of 685-686, 714-715, 724-725. *)
Definition held (s : src) : O := match q_o s with Some o => o | None => fresh end.
(** readOptionsStream, 721-737 (with mayPrintDoc, 740-775).  [g]: the stream if it is good.
    The boolean: an exception left the function. *)
Definition read_stream (g : option T) (s : src) : src * bool :=
  match g with
  | Some t =>
      let '(o, ok) := rdst (held s) t in
      if (ok : bool) then (mkSrc (Some o) true (q_doc s + if wants o then 1 else 0), false)
      else (mkSrc (Some o) (q_read s) (q_doc s), true)
  | None => (mkSrc (Some (held s)) true (q_doc s + if wants (held s) then 1 else 0), false)
  end.
(** readOptionsFile(fileName), 682-708: without a name the stream is never opened and is good and
    empty; a file that cannot be opened is a stream that is not good. *)
Definition opened (f : option F) : option T := match f with None => Some nothing | Some f => fs f end.
Definition read_file (f : option F) (s : src) : src * bool := read_stream (opened f) s.
(** readOptionsFile(), BonBabSetupBase.hpp 192-196. *)
Definition read_default (s : src) : src * bool := if q_read s then (s, false) else read_file (Some dflt) s.
(** mayPrintDoc, 740-775; null options are dereferenced at 744. *)
Definition print_doc (s : src) : outcome src :=
  match q_o s with None => NullDeref | Some o => Ok (mkSrc (Some o) (q_read s) (q_doc s + if wants o then 1 else 0)) end.

Inductive sop :=
| SInit                    (* initializeOptionsAndJournalist() *)
| SSet (k : K)             (* options()->Set...Value *)
| SFile (f : option F)     (* readOptionsFile(name) *)
| SDefault                 (* readOptionsFile() *)
| SString (t : T)          (* readOptionsString *)
| SUse                     (* use(tminlp), initialize(tminlp) *)
| SAmpl                    (* BonminAmplSetup::initialize(argv) *)
| SUseNlp (o : O)          (* use(nlp), initialize(nlp); o: the options of nlp *)
| SGive (o : O).           (* setOptionsAndJournalist *)
(** use(tminlp), 244-268: the options are read and used (251). *)
Definition use_problem (s : src) : outcome (src * bool) :=
  let '(s1, threw) := read_default s in
  if (threw : bool) then Ok (s1, true)
  else match q_o s1 with None => NullDeref | Some _ => Ok (s1, false) end.
Definition sstep (s : src) (op : sop) : outcome (src * bool) :=
  match op with
  | SInit => Ok (init_opts s, false)
  | SSet k => match q_o s with None => NullDeref | Some o => Ok (mkSrc (Some (setk o k)) (q_read s) (q_doc s), false) end
  | SFile f => Ok (read_file f s)
  | SDefault => Ok (read_default s)
  | SString t => Ok (read_stream (Some t) s)
  | SUse => use_problem s
  | SAmpl =>                                                     (* BonAmplSetup.cpp 14-22 *)
      let '(s1, threw) := read_default s in
      if (threw : bool) then Ok (s1, true)
      else do s2 <- print_doc s1; use_problem s2
  | SUseNlp o => Ok (mkSrc (Some o) true (q_doc s), false)       (* 290-300 *)
  | SGive o => Ok (mkSrc (Some o) (q_read s) (q_doc s), false)   (* BonBabSetupBase.hpp 216-223 *)
  end.
(** A program: exceptions are caught and it goes on. *)
Fixpoint srun (s : src) (ops : list sop) : outcome src :=
  match ops with
  | [] => Ok s
  | op :: ops => do ' (s, _) <- sstep s op; srun s ops
  end.
End Sources.
Arguments mkSrc {O}. Arguments q_o {O}. Arguments q_read {O}. Arguments q_doc {O}. Arguments src_new {O}.
Arguments held {O}. Arguments init_opts {O}.
Arguments SInit {O T K F}. Arguments SSet {O T K F}. Arguments SFile {O T K F}. Arguments SDefault {O T K F}.
Arguments SString {O T K F}. Arguments SUse {O T K F}. Arguments SAmpl {O T K F}. Arguments SUseNlp {O T K F}. Arguments SGive {O T K F}.

(** * Copies and ownership *)
(** An object on the heap: what it is (a number standing for its contents) and, for an interface to
    an NLP, the option list its solver uses. *)
Record cell := mkCell { e_what : nat; e_opt : option nat }.
Definition heap := list (option cell).          (* None: deleted *)
Definition hnew (c : cell) (h : heap) : heap * nat := (h ++ [Some c], length h).
Definition hget (p : nat) (h : heap) : outcome cell :=
  match nth_error h p with Some (Some c) => Ok c | _ => Dangling end.
Fixpoint hclear (p : nat) (h : heap) : heap :=
  match h, p with
  | [], _ => []
  | _ :: h, O => None :: h
  | c :: h, S p => c :: hclear p h
  end.
Definition hdel (p : nat) (h : heap) : outcome heap := do _ <- hget p h; Ok (hclear p h).
(** delete of a pointer that may be null. *)
Definition hdel_o (p : option nat) (h : heap) : outcome heap := match p with None => Ok h | Some p => hdel p h end.
Fixpoint hdel_all (ps : list nat) (h : heap) : outcome heap :=
  match ps with [] => Ok h | p :: ps => do h <- hdel p h; hdel_all ps h end.

(** Members of BabSetupBase, BonBabSetupBase.hpp 341-383; [u_opt]: options_ as a position in the
    store of option lists (they are reference counted and never deleted while in use). *)
Record setup := mkSu {
  u_nls : option nat; u_cts : option nat; u_cg : list (Z * nat); u_heu : list nat; u_br : option nat;
  u_ob : list nat; u_mh : option nat; u_opt : option nat; u_par : list Z; u_pref : nat; u_read : bool }.
(** The heap, the option lists and the set-up objects (None: destroyed). *)
Record world := mkW { w_h : heap; w_ol : list (list Z); w_su : list (option setup) }.
Definition w0 : world := mkW [] [] [].

Definition defaults : list Z := [].
(** OutOfBounds: the program names a set-up that does not exist (any more). *)
Definition su_at (i : nat) (w : world) : outcome setup :=
  match nth_error (w_su w) i with Some (Some u) => Ok u | _ => OutOfBounds end.
Fixpoint put {A} (i : nat) (v : A) (l : list A) : list A :=
  match l, i with
  | [], _ => []
  | _ :: l, O => v :: l
  | c :: l, S i => c :: put i v l
  end.
Definition su_put (i : nat) (u : setup) (w : world) : world := mkW (w_h w) (w_ol w) (put i (Some u) (w_su w)).
Definition su_push (u : setup) (w : world) : world := mkW (w_h w) (w_ol w) (w_su w ++ [Some u]).
Definition w_new (c : cell) (w : world) : world * nat :=
  let '(h, p) := hnew c (w_h w) in (mkW h (w_ol w) (w_su w), p).
Definition plain (v : nat) : cell := mkCell v None.

(** clone() of an object; [ren]: the option list of the clone of an NLP interface is a copy of the
    one of the source (TNLPSolver copy constructor, BonTNLPSolver.cpp 60-71). *)
Definition ol_copy (o : option nat) (w : world) : outcome (world * option nat) :=
  match o with
  | None => Ok (w, None)
  | Some q => match nth_error (w_ol w) q with
              | None => OutOfBounds
              | Some l => Ok (mkW (w_h w) (w_ol w ++ [l]) (w_su w), Some (length (w_ol w)))
              end
  end.
Definition clone (p : nat) (w : world) : outcome (world * nat) :=
  do c <- hget p (w_h w);
  do ' (w, o) <- ol_copy (e_opt c) w;
  Ok (w_new (mkCell (e_what c) o) w).
Definition clone_o (p : option nat) (w : world) : outcome (world * option nat) :=
  match p with None => Ok (w, None) | Some p => do ' (w, q) <- clone p w; Ok (w, Some q) end.
Fixpoint clone_cg (l : list (Z * nat)) (w : world) : outcome (world * list (Z * nat)) :=
  match l with
  | [] => Ok (w, [])
  | (f, p) :: l => do ' (w, q) <- clone p w; do ' (w, r) <- clone_cg l w; Ok (w, (f, q) :: r)
  end.
(** objects_[i]->clone() with the result dropped, 123-125, 175-177, 211-213. *)
Fixpoint clone_drop (l : list nat) (w : world) : outcome world :=
  match l with [] => Ok w | p :: l => do ' (w, _) <- clone p w; clone_drop l w end.
(** passInMessageHandler on a solver pointer. *)
Definition deref (p : option nat) (h : heap) : outcome unit :=
  match p with None => NullDeref | Some p => do _ <- hget p h; Ok tt end.
(** The handler is cloned and given to [p], 104-107, 157-160, 204-207. *)
Definition clone_mh (m p : option nat) (w : world) : outcome (world * option nat) :=
  match m with
  | None => Ok (w, None)
  | Some m => do ' (w, q) <- clone m w; do _ <- deref p (w_h w); Ok (w, Some q)
  end.
Definition peqb (a b : option nat) : bool :=
  match a, b with Some x, Some y => Nat.eqb x y | None, None => true | _, _ => false end.

(** Copy constructor, 77-126.  The loop of 113-116 runs over the new, empty list of heuristics. *)
Definition copy (u : setup) (w : world) : outcome (world * setup) :=
  do ' (w, n) <- clone_o (u_nls u) w;
  do ' (w, c) <- clone_o (u_cts u) w;
  do ' (w, m) <- clone_mh (u_mh u) c w;
  do ' (w, g) <- clone_cg (u_cg u) w;
  do ' (w, b) <- clone_o (u_br u) w;
  do ' (w, o) <- ol_copy (u_opt u) w;
  do w <- clone_drop (u_ob u) w;
  Ok (w, mkSu n c g [] b (u_ob u) m o (u_par u) (u_pref u) (u_read u)).
(** Copy with another NLP, 129-178; then the LP of BonminSetup(other, nlp), BonBonminSetup.cpp
    66-88, when there is no continuous solver yet. *)
Definition copy_nlp (u : setup) (p : nat) (w : world) : outcome (world * setup) :=
  let c := if peqb (u_cts u) (u_nls u) then Some p else None in
  do ' (w, m) <- clone_mh (u_mh u) c w;
  do ' (w, g) <- clone_cg (u_cg u) w;
  do ' (w, b) <- clone_o (u_br u) w;
  do ' (w, o) <- ol_copy (u_opt u) w;
  do w <- clone_drop (u_ob u) w;
  do ' (w, c) <- match c with
                 | Some c => match u_nls u with None => AssertFail | Some _ => Ok (w, Some c) end   (* algo_ is Dummy *)
                 | None => match u_opt u with
                           | None => NullDeref
                           | Some _ => let '(w, q) := w_new (plain 0) w in Ok (w, Some q)
                           end
                 end;
  Ok (w, mkSu (Some p) c g [] b (u_ob u) m o (u_par u) (u_pref u) (u_read u)).
(** Copy with another NLP and prefix, 180-214, followed by the choice of the continuous solver in
    initializeBBB or initializeBHyb (BonBonminSetup.cpp 89-101). *)
Definition copy_pre (u : setup) (p pref : nat) (same : bool) (w : world) : outcome (world * setup) :=
  do ' (w, o) <- ol_copy (u_opt u) w;
  do ' (w, m) <- clone_mh (u_mh u) (Some p) w;
  do _ <- match u_opt u with None => NullDeref | Some _ => Ok tt end;      (* gatherParametersValues *)
  do w <- clone_drop (u_ob u) w;
  let '(w, c) := if same then (w, p) else w_new (plain 0) w in
  Ok (w, mkSu (Some p) (Some c) [] [] None (u_ob u) m o defaults pref (u_read u)).
(** use(tminlp) with the choice of the continuous solver, 244-268, BonBonminSetup.cpp 163-173:
    the NLP solver gets options_ itself (OsiTMINLPInterface::createApplication). *)
Definition initialize (u : setup) (v : nat) (same : bool) (w : world) : outcome (world * setup) :=
  let '(w, o) := match u_opt u with
                 | Some q => (w, q)
                 | None => (mkW (w_h w) (w_ol w ++ [[]]) (w_su w), length (w_ol w))
                 end in
  let '(w, n) := w_new (mkCell v (Some o)) w in
  let '(w, m) := match u_mh u with Some m => (w, m) | None => w_new (plain 0) w end in
  let '(w, c) := if same then (w, n) else w_new (plain 0) w in
  Ok (w, mkSu (Some n) (Some c) (u_cg u) (u_heu u) (u_br u) (u_ob u) (Some m) (Some o) (u_par u) (u_pref u) true).
(** use(nlp), 290-300, with the choice of the continuous solver: the set-up takes the option list of
    the clone of nlp; its own handler is deleted. *)
Definition initialize_nlp (u : setup) (v : nat) (same : bool) (w : world) : outcome (world * setup) :=
  let o := length (w_ol w) in
  let w := mkW (w_h w) (w_ol w ++ [[]]) (w_su w) in
  let '(w, n) := w_new (mkCell v (Some o)) w in
  do h <- hdel_o (u_mh u) (w_h w);
  let w := mkW h (w_ol w) (w_su w) in
  let '(w, m) := w_new (plain 0) w in
  let '(w, c) := if same then (w, n) else w_new (plain 0) w in
  Ok (w, mkSu (Some n) (Some c) (u_cg u) (u_heu u) (u_br u) (u_ob u) (Some m) (Some o) (u_par u) (u_pref u) true).
(** Destructor, 325-347. *)
Definition destroy (u : setup) (h : heap) : outcome heap :=
  do h <- (if peqb (u_nls u) (u_cts u) then Ok h else hdel_o (u_nls u) h);
  do h <- hdel_o (u_cts u) h;
  do h <- hdel_o (u_br u) h;
  do h <- hdel_all (map snd (u_cg u)) h;
  do h <- hdel_all (u_heu u) h;
  do h <- hdel_all (u_ob u) h;
  hdel_o (u_mh u) h.

Inductive wop :=
| WNew (handler : bool)                 (* BonminSetup(handler) *)
| WInit (i v : nat) (same : bool)       (* initialize; v: the problem; same: B-BB *)
| WFrom (i v : nat) (same : bool)       (* initialize(nlp) *)
| WCut (i : nat) (f : Z) (v : nat)      (* cutGenerators().push_back(new ...) *)
| WHeu (i v : nat)                      (* heuristics().push_back(new ...) *)
| WBr (i v : nat)                       (* the branching method is set *)
| WObj (i v : nat)                      (* objects().push_back(new ...) *)
| WPar (i : nat) (l : list Z)           (* set...Parameter *)
| WOpt (i : nat) (l : list Z)           (* options()->Set...: the list becomes l *)
| WCopy (i : nat)                       (* BonminSetup(other), clone() *)
| WCopyNlp (i v : nat)                  (* clone(nlp), nlp a new interface whose solver has its own options *)
| WCopyPre (i v pref : nat) (same : bool)
| WDel (i : nat).
Definition upd_su (i : nat) (w : world) (f : setup -> world -> outcome (world * setup)) : outcome world :=
  do u <- su_at i w; do ' (w, u) <- f u w; Ok (su_put i u w).
Definition new_su (i : nat) (w : world) (f : setup -> world -> outcome (world * setup)) : outcome world :=
  do u <- su_at i w; do ' (w, u) <- f u w; Ok (su_push u w).
(** A new NLP interface with its own list of options. *)
Definition new_nlp (v : nat) (w : world) : world * nat :=
  w_new (mkCell v (Some (length (w_ol w)))) (mkW (w_h w) (w_ol w ++ [[]]) (w_su w)).
Definition wstep (w : world) (op : wop) : outcome world :=
  match op with
  | WNew hd =>
      let '(w, m) := if hd then let '(w, m) := w_new (plain 0) w in (w, Some m) else (w, None) in
      Ok (su_push (mkSu None None [] [] None [] m None defaults 0 false) w)
  | WInit i v same => upd_su i w (fun u w => initialize u v same w)
  | WFrom i v same => upd_su i w (fun u w => initialize_nlp u v same w)
  | WCut i f v => upd_su i w (fun u w => let '(w, p) := w_new (plain v) w in
      Ok (w, mkSu (u_nls u) (u_cts u) (u_cg u ++ [(f, p)]) (u_heu u) (u_br u) (u_ob u) (u_mh u) (u_opt u) (u_par u) (u_pref u) (u_read u)))
  | WHeu i v => upd_su i w (fun u w => let '(w, p) := w_new (plain v) w in
      Ok (w, mkSu (u_nls u) (u_cts u) (u_cg u) (u_heu u ++ [p]) (u_br u) (u_ob u) (u_mh u) (u_opt u) (u_par u) (u_pref u) (u_read u)))
  | WBr i v => upd_su i w (fun u w => let '(w, p) := w_new (plain v) w in
      Ok (w, mkSu (u_nls u) (u_cts u) (u_cg u) (u_heu u) (Some p) (u_ob u) (u_mh u) (u_opt u) (u_par u) (u_pref u) (u_read u)))
  | WObj i v => upd_su i w (fun u w => let '(w, p) := w_new (plain v) w in
      Ok (w, mkSu (u_nls u) (u_cts u) (u_cg u) (u_heu u) (u_br u) (u_ob u ++ [p]) (u_mh u) (u_opt u) (u_par u) (u_pref u) (u_read u)))
  | WPar i l => upd_su i w (fun u w =>
      Ok (w, mkSu (u_nls u) (u_cts u) (u_cg u) (u_heu u) (u_br u) (u_ob u) (u_mh u) (u_opt u) l (u_pref u) (u_read u)))
  | WOpt i l => do u <- su_at i w;
      match u_opt u with
      | None => NullDeref
      | Some q => Ok (mkW (w_h w) (put q l (w_ol w)) (w_su w))
      end
  | WCopy i => new_su i w copy
  | WCopyNlp i v => let '(w, p) := new_nlp v w in new_su i w (fun u w => copy_nlp u p w)
  | WCopyPre i v pref same => let '(w, p) := new_nlp v w in new_su i w (fun u w => copy_pre u p pref same w)
  | WDel i => do u <- su_at i w; do h <- destroy u (w_h w); Ok (mkW h (w_ol w) (put i None (w_su w)))
  end.
Fixpoint wrun (w : world) (ops : list wop) : outcome world :=
  match ops with [] => Ok w | op :: ops => do w <- wstep w op; wrun w ops end.
