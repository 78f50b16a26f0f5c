(** Model of the quadratic rows and cuts:
    src/Algorithms/QuadCuts/BonTMatrix.{hpp,cpp}, BonQuadRow.{hpp,cpp},
    BonQuadCut.{hpp,cpp} and BonTMINLP2Quad.{hpp,cpp}.
    Simplifications: doubles are exact rationals; a point [x] is a function
    from indices to rationals; the three parallel arrays of a triplet matrix
    are one list of triplets; std::sort is an argument (any sorted
    permutation); std::map is an association list kept in key order; printing
    is dropped. *)
From Verif Require Import Base.
#[local] Open Scope Q_scope.

(** One entry (iRow_, jCol_, value_) of a triplet matrix, BonTMatrix.hpp 30-40. *)
Record trip := mkT { t_i : nat; t_j : nat; t_v : Q }.

(** MatrixStorageType, BonQuadCut.hpp 23-26. *)
Inductive storage := Upper | Lower | Full.

(** The fields of TMat used by rows (BonTMatrix.hpp 30-40, 147-160).  The two
    ordering vectors are stored as the sequences of triplets they designate. *)
Record tmat := mkTMat {
  tm_e  : list trip;          (* iRow_, jCol_, value_, nnz_ *)
  tm_ro : list trip;          (* rowOrdering_ *)
  tm_co : list trip;          (* columnOrdering_ *)
  tm_nr : list (nat * nat);   (* nonEmptyRows_ : (row, first position) *)
  tm_nc : list (nat * nat)    (* nonEmptyCols_ *)
}.

(** TMat(), BonTMatrix.hpp 42-46. *)
Definition tmat0 : tmat := mkTMat [] [] [] [] [].

(** ** make_upper_triangular *)

(** make_lower_to_be_upper, BonTMatrix.cpp 184-189: the two index arrays are exchanged. *)
Definition swap_ij (t : trip) : trip := mkT (t_j t) (t_i t) (t_v t).

Definition upper_ok (t : trip) : bool := Nat.leb (t_i t) (t_j t).
Definition lower_ok (t : trip) : bool := Nat.leb (t_j t) (t_i t).

(** The loop of make_full_upper_triangular, BonTMatrix.cpp 195-201.  [i] and
    [j] start at 0 and the body changes neither. *)
Fixpoint set_nth {A} (k : nat) (v : A) (l : list A) {struct l} : list A :=
  match l with
  | [] => []
  | a :: l' => match k with O => v :: l' | S k' => a :: set_nth k' v l' end
  end.

Fixpoint full_loop (fuel : nat) (i j : nat) (E : list trip) : outcome (list trip) :=
  match fuel with
  | O => Diverges
  | S fuel' =>
      if (Nat.ltb i (length E) && Nat.ltb j (length E))%bool then
        match nth_error E i with
        | None => OutOfBounds
        | Some t =>
            if Nat.ltb (t_i t) (t_j t)
            then full_loop fuel' i j (set_nth i (swap_ij t) E)
            else full_loop fuel' i j E
        end
      else Ok E
  end.

(** removeDuplicates, BonTMatrix.cpp 138-157.  [ro] is rowOrdering_ after
    orderByRows: a list of positions.  The loop runs over positions 1.. of
    [ro] with the write position [j]; at the end the arrays keep their first
    [j] entries. *)
Fixpoint rd_loop (ro : list nat) (is : list nat) (j : nat) (E : list trip)
  : outcome (nat * list trip) :=
  match is with
  | [] => Ok (j, E)
  | i :: is' =>
      match nth_error ro i, nth_error ro j with
      | Some pi, Some pj =>
          match nth_error E pi, nth_error E pj with
          | Some ti, Some tj =>
              if (Nat.eqb (t_j ti) (t_j tj) && Nat.eqb (t_i ti) (t_i tj))%bool
              then rd_loop ro is' j (set_nth pj (mkT (t_i tj) (t_j tj) (t_v tj + t_v ti)) E)
              else match nth_error ro (S j) with
                   | Some pj' => rd_loop ro is' (S j) (set_nth pj' ti E)
                   | None => OutOfBounds
                   end
          | _, _ => OutOfBounds
          end
      | _, _ => OutOfBounds
      end
  end.

Definition remove_duplicates (ro : list nat) (E : list trip) : outcome (list trip) :=
  do ' (j, E') <- rd_loop ro (seq 1 (length E - 1)) 0 E;
  Ok (firstn j E').

(** Lines 206-212: off-diagonal entries are divided by two. *)
Definition halve (t : trip) : trip :=
  if Nat.eqb (t_i t) (t_j t) then t else mkT (t_i t) (t_j t) (t_v t / 2).

(** make_full_upper_triangular, BonTMatrix.cpp 192-213. *)
Definition make_full (fuel : nat) (order : list trip -> list nat) (E : list trip)
  : outcome (list trip) :=
  do E1 <- full_loop fuel 0 0 E;
  do E2 <- remove_duplicates (order E1) E1;
  if forallb (fun t => Nat.leb (t_i t) (t_j t)) E2 then Ok (map halve E2) else AssertFail.

(** make_upper_triangular, BonTMatrix.cpp 159-180. *)
Definition make_upper (fuel : nat) (order : list trip -> list nat) (ty : storage)
  (E : list trip) : outcome (list trip) :=
  do E' <-
    match ty with
    | Upper => if forallb upper_ok E then Ok E else AssertFail
    | Lower => if forallb lower_ok E then Ok (map swap_ij E) else AssertFail
    | Full => make_full fuel order E
    end;
  if forallb upper_ok E' then Ok E' else AssertFail.

(** ** Rows *)

(** gStore of BonQuadRow.hpp 73-76: map from index to (linear, quadratic) part. *)
Definition gmap := list (nat * (Q * Q)).

(** std::map::insert: an existing key is left alone. *)
Fixpoint ginsert (k : nat) (v : Q) (g : gmap) : gmap :=
  match g with
  | [] => [(k, (v, 0))]
  | (k', p) :: g' =>
      if Nat.ltb k k' then (k, (v, 0)) :: g
      else if Nat.eqb k k' then g
      else (k', p) :: ginsert k v g'
  end.

(** [it->second.second += v] through an iterator to key [k]. *)
Fixpoint gadd (k : nat) (v : Q) (g : gmap) : outcome gmap :=
  match g with
  | [] => Dangling
  | (k', (l, q)) :: g' =>
      if Nat.eqb k k' then Ok ((k', (l, q + v)) :: g')
      else do g'' <- gadd k v g'; Ok ((k', (l, q)) :: g'')
  end.

(** A key of the Hessian map and the node identity an iterator designates. *)
Definition hkey := (nat * nat)%type.
Definition hiter := (hkey * nat)%type.

(** QuadRow, BonQuadRow.hpp 66-100. *)
Record row := mkRow {
  r_c : Q;
  r_a : list (nat * Q);       (* a_ : indices and elements *)
  r_q : tmat;                 (* Q_ *)
  r_g : gmap;                 (* g_ *)
  r_h : list hiter            (* Q_hessian_idx_ *)
}.

(** First positions of each row in an ordering: numNonEmptyRows and
    numNonEmptyCols, BonTMatrix.cpp 103-136 ([key] is the row or the column). *)
Fixpoint ne_aux (key : trip -> nat) (last : nat) (i : nat) (l : list trip) : list (nat * nat) :=
  match l with
  | [] => []
  | t :: l' =>
      if Nat.ltb last (key t) then (key t, i) :: ne_aux key (key t) (S i) l'
      else ne_aux key last (S i) l'
  end.
Definition non_empty (key : trip -> nat) (l : list trip) : list (nat * nat) :=
  match l with
  | [] => []
  | t :: l' => (key t, O) :: ne_aux key (key t) 1 l'
  end.

(** Lines 236-239 and 249-253 of BonQuadRow.cpp: sum from a position while the key stays. *)
Fixpoint run_sum (key : trip -> nat) (w : trip -> Q) (k : nat) (l : list trip) : Q :=
  match l with
  | [] => 0
  | t :: l' => if Nat.eqb k (key t) then w t + run_sum key w k l' else 0
  end.

(** One pass of internal_eval_grad over nonEmptyRows or nonEmptyCols. *)
Fixpoint grad_pass (key : trip -> nat) (w : trip -> Q) (ord : list trip)
  (ne : list (nat * nat)) (g : gmap) : outcome gmap :=
  match ne with
  | [] => Ok g
  | (k, s) :: ne' =>
      match nth_error ord s with
      | None => OutOfBounds                                      (* 235, 248 *)
      | Some t =>
          if Nat.eqb k (key t)
          then do g' <- gadd k (run_sum key w k (skipn s ord)) g;
               grad_pass key w ord ne' g'
          else AssertFail
      end
  end.

Section Rows.
(** Results of the two std::sort calls of BonTMatrix.hpp 118-128. *)
Variable sort_rows sort_cols : list trip -> list trip.

(** numNonEmptyRows: with nnz_ = 0 it returns without touching nonEmptyRows_. *)
Definition num_ne_rows (m : tmat) : tmat :=
  match tm_e m with
  | [] => m
  | _ => let ro := sort_rows (tm_e m) in
         mkTMat (tm_e m) ro (tm_co m) (non_empty t_i ro) (tm_nc m)
  end.
Definition num_ne_cols (m : tmat) : tmat :=
  match tm_e m with
  | [] => m
  | _ => let co := sort_cols (tm_e m) in
         mkTMat (tm_e m) (tm_ro m) co (tm_nr m) (non_empty t_j co)
  end.

(** QuadRow::initialize, BonQuadRow.cpp 102-142 ([r_g] starts empty in all callers). *)
Definition initialize (c : Q) (a : list (nat * Q)) (m : tmat) (h : list hiter) : outcome row :=
  if forallb upper_ok (tm_e m) then
    let g1 := fold_left (fun g p => ginsert (fst p) (snd p) g) a [] in
    let m1 := num_ne_rows m in
    let g2 := fold_left (fun g p => ginsert (fst p) 0 g) (tm_nr m1) g1 in
    let m2 := num_ne_cols m1 in
    let g3 := fold_left (fun g p => ginsert (fst p) 0 g) (tm_nc m2) g2 in
    Ok (mkRow c a m2 g3 h)
  else AssertFail.

(** QuadRow::internal_eval_grad, BonQuadRow.cpp 222-259. *)
Definition row_weight (x : nat -> Q) (t : trip) : Q := x (t_j t) * t_v t.
Definition col_weight (x : nat -> Q) (t : trip) : Q :=
  if Nat.eqb (t_i t) (t_j t) then 0 else x (t_i t) * t_v t.
Definition gzero (g : gmap) : gmap := map (fun p => (fst p, (fst (snd p), 0))) g.

Definition internal_eval_grad (x : nat -> Q) (r : row) : outcome row :=
  do g1 <- grad_pass t_i (row_weight x) (tm_ro (r_q r)) (tm_nr (r_q r)) (gzero (r_g r));
  do g2 <- grad_pass t_j (col_weight x) (tm_co (r_q r)) (tm_nc (r_q r)) g1;
  Ok (mkRow (r_c r) (r_a r) (r_q r) g2 (r_h r)).

(** QuadRow::eval_f, BonQuadRow.cpp 159-180. *)
Definition row_eval_f (x : nat -> Q) (r : row) : outcome (Q * row) :=
  do r' <- internal_eval_grad x r;
  Ok (r_c r + qsum (map (fun p => snd p * x (fst p)) (r_a r))
      + qsum (map (fun p => snd (snd p) * x (fst p)) (r_g r')), r').

(** QuadRow::nnz_grad 183-185, gradiant_struct 187-195. *)
Definition nnz_grad (r : row) : nat := length (r_g r).
Definition gradiant_struct (off : nat) (r : row) : list nat := map (fun p => (fst p + off)%nat) (r_g r).

(** QuadRow::eval_grad, BonQuadRow.cpp 198-220. *)
Definition row_eval_grad (x : nat -> Q) (r : row) : outcome (list Q * row) :=
  do r' <- internal_eval_grad x r;
  Ok (map (fun p => 2 * snd (snd p) + fst (snd p)) (r_g r'), r').

(** ** Cuts and their conversion to rows *)

(** QuadCut: OsiRowCut bounds and row, constant, matrix, storage
    (BonQuadCut.hpp 28-83).  The packed matrix is the list of its entries in
    major order, already written as (row, column, value), which is what
    TMat::create (BonTMatrix.cpp 61-92) stores. *)
Record qcut := mkCut {
  k_lb : Q; k_ub : Q; k_c : Q; k_a : list (nat * Q); k_e : list trip; k_ty : storage
}.

(** An OsiRowCut that is not a QuadCut. *)
Record lcut := mkLCut { l_lb : Q; l_ub : Q; l_a : list (nat * Q) }.

(** QuadCut::violated, BonQuadCut.cpp 50-66: the value [rhs] it computes. *)
Definition cut_rhs (k : qcut) (x : nat -> Q) : Q :=
  k_c k + qsum (map (fun p => snd p * x (fst p)) (k_a k))
  + qsum (map (fun t => if Nat.eqb (t_j t) (t_i t) then x (t_j t) * x (t_i t) * t_v t
                        else 2 * x (t_j t) * x (t_i t) * t_v t) (k_e k)).

Variable fuel : nat.
Variable order : list trip -> list nat.

(** QuadRow(const QuadCut&), BonQuadRow.cpp 54-60: c_ is set to 0. *)
Definition row_of_cut (k : qcut) : outcome row :=
  do E <- make_upper fuel order (k_ty k) (k_e k);
  initialize 0 (k_a k) (mkTMat E [] [] [] []) [].

(** QuadRow::operator=(const QuadCut&), BonQuadRow.cpp 62-76, and
    TMat::operator=(const CoinPackedMatrix&), BonTMatrix.cpp 51-59: the
    orderings are cleared, nonEmptyRows_/nonEmptyCols_ and the Hessian
    iterators are not. *)
Definition row_assign_cut (r : row) (k : qcut) : outcome row :=
  do E <- make_upper fuel order (k_ty k) (k_e k);
  initialize (k_c k) (k_a k) (mkTMat E [] [] (tm_nr (r_q r)) (tm_nc (r_q r))) (r_h r).

(** QuadRow(const OsiRowCut&), BonQuadRow.cpp 79-85. *)
Definition row_of_lcut (k : lcut) : outcome row := initialize 0 (l_a k) tmat0 [].

(** QuadRow(const QuadRow&), BonQuadRow.cpp 23-35 with TMat copy constructor,
    BonTMatrix.cpp 15-22: orderings are copied, lists of nonempty rows are not. *)
Definition row_copy (r : row) : outcome row :=
  initialize (r_c r) (r_a r) (mkTMat (tm_e (r_q r)) (tm_ro (r_q r)) (tm_co (r_q r)) [] []) [].

(** QuadRow::operator=(const QuadRow&), BonQuadRow.cpp 37-52 with
    TMat::operator=(const TMat&), BonTMatrix.cpp 33-48. *)
Definition row_assign_row (r rhs : row) : outcome row :=
  initialize (r_c rhs) (r_a rhs)
    (mkTMat (tm_e (r_q rhs)) (tm_ro (r_q rhs)) (tm_co (r_q rhs)) [] []) [].

(** ** The Hessian map *)

(** AdjustableMat of BonQuadRow.hpp 25: map from (column, row) to (position,
    count); count -1 marks an entry of the original Hessian.  [n_id] is the
    identity of the map node, so that an iterator to an erased node is never
    confused with a later node of the same key. *)
Record hnode := mkN { n_idx : nat; n_cnt : Z; n_id : nat }.
Definition hmap := list (hkey * hnode).

Definition key_eqb (a b : hkey) : bool := (Nat.eqb (fst a) (fst b) && Nat.eqb (snd a) (snd b))%bool.
Definition key_ltb (a b : hkey) : bool :=
  (Nat.ltb (fst a) (fst b) || (Nat.eqb (fst a) (fst b) && Nat.ltb (snd a) (snd b)))%bool.

Fixpoint hfind (k : hkey) (H : hmap) : option hnode :=
  match H with
  | [] => None
  | (k', n) :: H' => if key_eqb k k' then Some n else hfind k H'
  end.
Fixpoint hinsert (k : hkey) (n : hnode) (H : hmap) : hmap :=
  match H with
  | [] => [(k, n)]
  | (k', n') :: H' => if key_ltb k k' then (k, n) :: H else (k', n') :: hinsert k n H'
  end.
Fixpoint hset (k : hkey) (n : hnode) (H : hmap) : hmap :=
  match H with
  | [] => []
  | (k', n') :: H' => if key_eqb k k' then (k', n) :: H' else (k', n') :: hset k n H'
  end.
Fixpoint herase (k : hkey) (H : hmap) : hmap :=
  match H with
  | [] => []
  | (k', n') :: H' => if key_eqb k k' then H' else (k', n') :: herase k H'
  end.
(** Dereference an iterator: the node must still be in the map. *)
Definition hderef (it : hiter) (H : hmap) : outcome hnode :=
  match hfind (fst it) H with
  | Some n => if Nat.eqb (n_id n) (snd it) then Ok n else Dangling
  | None => Dangling
  end.

(** Key of an entry, BonQuadRow.cpp 266. *)
Definition ekey (off : nat) (t : trip) : hkey := ((t_j t + off)%nat, (t_i t + off)%nat).

(** QuadRow::add_to_hessian, BonQuadRow.cpp 261-280.  [nx] is the next node identity. *)
Fixpoint add_entries (off : nat) (E : list trip) (H : hmap) (nx : nat)
  : list hiter * hmap * nat :=
  match E with
  | [] => ([], H, nx)
  | t :: E' =>
      let k := ekey off t in
      match hfind k H with
      | Some n =>
          let H1 := if Z.eqb (n_cnt n) (-1) then H
                    else hset k (mkN (n_idx n) (n_cnt n + 1) (n_id n)) H in
          let '(its, H2, nx2) := add_entries off E' H1 nx in
          ((k, n_id n) :: its, H2, nx2)
      | None =>
          let '(its, H2, nx2) :=
            add_entries off E' (hinsert k (mkN (length H) 1 nx) H) (S nx) in
          ((k, nx) :: its, H2, nx2)
      end
  end.
Definition add_to_hessian (off : nat) (r : row) (H : hmap) (nx : nat)
  : outcome (row * hmap * nat) :=
  match r_h r with
  | [] => let '(its, H', nx') := add_entries off (tm_e (r_q r)) H nx in
          Ok (mkRow (r_c r) (r_a r) (r_q r) (r_g r) its, H', nx')
  | _ => AssertFail
  end.

(** QuadRow::remove_from_hessian, BonQuadRow.cpp 282-292: one iterator per entry. *)
Fixpoint remove_iters (E : list trip) (its : list hiter) (H : hmap) : outcome hmap :=
  match E with
  | [] => Ok H
  | _ :: E' =>
      match its with
      | [] => OutOfBounds
      | it :: its' =>
          do n <- hderef it H;
          let cnt := if Z.eqb (n_cnt n) (-1) then n_cnt n else (n_cnt n - 1)%Z in
          let H1 := if Z.eqb cnt 0 then herase (fst it) H
                    else hset (fst it) (mkN (n_idx n) cnt (n_id n)) H in
          remove_iters E' its' H1
      end
  end.

(** ** The NLP with cuts *)

(** TMINLP2TNLPQuadCuts, BonTMINLP2Quad.hpp: [s_m] constraints of the original
    problem, [s_hb] the pattern of its Hessian, [s_jb] its number of Jacobian
    nonzeros, [s_off] 1 for FORTRAN_STYLE, and the added rows with the tails of
    g_l_ and g_u_ belonging to them. *)
Record qnlp := mkS {
  s_m : nat; s_hb : list hkey; s_jb : nat; s_off : nat;
  s_rows : list row; s_gl : list Q; s_gu : list Q;
  s_H : hmap; s_nx : nat; s_nnzjac : nat
}.

(** Constructor, BonTMINLP2Quad.cpp 18-47 (the assertion on repeated keys). *)
Fixpoint load_base (i : nat) (ks : list hkey) (H : hmap) : outcome hmap :=
  match ks with
  | [] => Ok H
  | k :: ks' => match hfind k H with
                | Some _ => AssertFail
                | None => load_base (S i) ks' (hinsert k (mkN i (-1) i) H)
                end
  end.
Definition q_new (m : nat) (hb : list hkey) (jb off : nat) : outcome qnlp :=
  do H <- load_base 0 hb [];
  Ok (mkS m hb jb off [] [] [] H (length hb) jb).

(** addCuts, BonTMINLP2Quad.cpp 359-366, 430-436: one quadratic cut. *)
Definition q_add_quad (k : qcut) (s : qnlp) : outcome qnlp :=
  do r <- row_of_cut k;
  do ' (r', H', nx') <- add_to_hessian (s_off s) r (s_H s) (s_nx s);
  Ok (mkS (s_m s) (s_hb s) (s_jb s) (s_off s) (s_rows s ++ [r'])
          (s_gl s ++ [k_lb k]) (s_gu s ++ [k_ub k]) H' nx'
          (s_nnzjac s + nnz_grad r)).
(** addRowCuts, BonTMINLP2Quad.cpp 424-441: one linear cut (not put in the Hessian). *)
Definition q_add_lin (k : lcut) (s : qnlp) : outcome qnlp :=
  do r <- row_of_lcut k;
  Ok (mkS (s_m s) (s_hb s) (s_jb s) (s_off s) (s_rows s ++ [r])
          (s_gl s ++ [l_lb k]) (s_gu s ++ [l_ub k]) (s_H s) (s_nx s)
          (s_nnzjac s + nnz_grad r)).

(** removeCuts, BonTMINLP2Quad.cpp 448-483.  First loop (453-458): rows are
    detached and their pointers nulled. *)
Fixpoint detach (m : nat) (idxs : list nat) (rows : list (option row)) (H : hmap) (nj : nat)
  : outcome (list (option row) * hmap * nat) :=
  match idxs with
  | [] => Ok (rows, H, nj)
  | i :: idxs' =>
      if Nat.ltb i m then OutOfBounds
      else match nth_error rows (i - m) with
           | None => OutOfBounds
           | Some None => NullDeref
           | Some (Some r) =>
               do H' <- remove_iters (tm_e (r_q r)) (r_h r) H;
               detach m idxs' (set_nth (i - m) None rows) H' (nj - nnz_grad r)
           end
  end.
(** Lines 460-468: the surviving positions in increasing order (the others
    become INT_MAX and are sorted last). *)
Definition survivors (m : nat) (idxs : list nat) (n : nat) : list nat :=
  filter (fun p => negb (existsb (fun i => Nat.eqb (i - m) p) idxs)) (seq 0 n).
(** Lines 474-482: entries are moved down in place, then the tail is erased. *)
Fixpoint move_down {A} (i : nat) (ord : list nat) (l : list A) : outcome (list A) :=
  match ord with
  | [] => Ok (firstn i l)
  | p :: ord' =>
      match nth_error l p with
      | None => OutOfBounds
      | Some v => move_down (S i) ord' (set_nth i v l)
      end
  end.
(** A vector of non-null row pointers. *)
Fixpoint all_some {A} (l : list (option A)) : outcome (list A) :=
  match l with
  | [] => Ok []
  | None :: _ => NullDeref
  | Some a :: l' => do r <- all_some l'; Ok (a :: r)
  end.
Definition q_remove (idxs : list nat) (s : qnlp) : outcome qnlp :=
  match idxs with
  | [] => Ok s
  | _ =>
      do ' (rows, H', nj) <- detach (s_m s) idxs (map Some (s_rows s)) (s_H s) (s_nnzjac s);
      let ord := survivors (s_m s) idxs (length (s_rows s)) in
      do rows1 <- move_down 0 ord rows;
      do gl1 <- move_down 0 ord (s_gl s);
      do gu1 <- move_down 0 ord (s_gu s);
      do rows2 <- all_some rows1;
      Ok (mkS (s_m s) (s_hb s) (s_jb s) (s_off s) rows2 gl1 gu1 H' (s_nx s) nj)
  end.

(** Copy constructor, BonTMINLP2Quad.cpp 53-93: the map is rebuilt and every
    row copied and added again. *)
Fixpoint copy_rows (off : nat) (rows : list row) (H : hmap) (nx : nat)
  : outcome (list row * hmap * nat) :=
  match rows with
  | [] => Ok ([], H, nx)
  | r :: rows' =>
      do r1 <- row_copy r;
      do ' (r2, H1, nx1) <- add_to_hessian off r1 H nx;
      do ' (rs, H2, nx2) <- copy_rows off rows' H1 nx1;
      Ok (r2 :: rs, H2, nx2)
  end.
Definition q_copy (s : qnlp) : outcome qnlp :=
  do H0 <- load_base 0 (s_hb s) [];
  do ' (rs, H, nx) <- copy_rows (s_off s) (s_rows s) H0 (length (s_hb s));
  Ok (mkS (s_m s) (s_hb s) (s_jb s) (s_off s) rs (s_gl s) (s_gu s) H nx (s_nnzjac s)).

(** eval_h with values = NULL, BonTMINLP2Quad.cpp 295-326: positions are
    renumbered; [writes] are the (position, (iRow, jCol)) stores. *)
Fixpoint h_struct (nb : nat) (sup : nat) (H : hmap) : outcome (list (nat * hkey) * hmap) :=
  match H with
  | [] => Ok ([], [])
  | (k, n) :: H' =>
      if Z.eqb (n_cnt n) (-1) then
        if Nat.ltb (n_idx n) nb then
          do ' (w, H2) <- h_struct nb sup H';
          Ok ((n_idx n, k) :: w, (k, n) :: H2)
        else AssertFail
      else if (Z.ltb 0 (n_cnt n) && Nat.leb nb (n_idx n))%bool then
        do ' (w, H2) <- h_struct nb (S sup) H';
        Ok ((sup, k) :: w, (k, mkN sup (n_cnt n) (n_id n)) :: H2)
      else AssertFail
  end.
Definition q_hstruct (s : qnlp) : outcome (list (nat * hkey) * qnlp) :=
  do ' (w, H') <- h_struct (length (s_hb s)) (length (s_hb s)) (s_H s);
  Ok (w, mkS (s_m s) (s_hb s) (s_jb s) (s_off s) (s_rows s) (s_gl s) (s_gu s) H' (s_nx s) (s_nnzjac s)).
(** get_nlp_info, lines 104-112. *)
Definition q_nnz_h (s : qnlp) : nat := length (s_H s).

(** [values[k] += v]. *)
Definition add_at (k : nat) (v : Q) (vals : list Q) : outcome (list Q) :=
  match nth_error vals k with
  | None => OutOfBounds
  | Some o => Ok (set_nth k (o + v) vals)
  end.
(** QuadRow::eval_hessian, BonQuadRow.cpp 295-307. *)
Fixpoint eval_hess_row (lam : Q) (E : list trip) (its : list hiter) (H : hmap) (vals : list Q)
  : outcome (list Q) :=
  match E with
  | [] => Ok vals
  | t :: E' =>
      match its with
      | [] => OutOfBounds
      | it :: its' =>
          do n <- hderef it H;
          do vals' <- add_at (n_idx n) (lam * 2 * t_v t) vals;
          eval_hess_row lam E' its' H vals'
      end
  end.
Fixpoint eval_hess_rows (lams : list Q) (rows : list row) (H : hmap) (vals : list Q)
  {struct rows} : outcome (list Q) :=
  match rows with
  | [] => Ok vals
  | r :: rows' =>
      match lams with
      | [] => OutOfBounds
      | l :: lams' =>
          do v <- eval_hess_row l (tm_e (r_q r)) (r_h r) H vals;
          eval_hess_rows lams' rows' H v
      end
  end.
(** eval_h with values, lines 327-342.  [base] are the values the original
    problem wrote at the first positions; [lams] the multipliers of the added
    rows, lambda[i + m_orig]. *)
Definition q_hvals (base : list Q) (lams : list Q) (s : qnlp) : outcome (list Q) :=
  eval_hess_rows lams (s_rows s) (s_H s)
    (base ++ repeat 0 (q_nnz_h s - length (s_hb s))).

(** eval_g, lines 210-219: values of the added rows, in row order. *)
Fixpoint eval_rows (x : nat -> Q) (rows : list row) : outcome (list Q) :=
  match rows with
  | [] => Ok []
  | r :: rows' => do ' (v, _) <- row_eval_f x r; do vs <- eval_rows x rows'; Ok (v :: vs)
  end.

(** eval_jac_g, lines 226-260: (iRow, jCol) of the added block, then its values. *)
Fixpoint jac_struct (off : nat) (i : nat) (rows : list row) : list (nat * nat) :=
  match rows with
  | [] => []
  | r :: rows' => map (fun c => ((i + off)%nat, c)) (gradiant_struct off r)
                  ++ jac_struct off (S i) rows'
  end.
Definition q_jstruct (s : qnlp) : list (nat * nat) := jac_struct (s_off s) (s_m s) (s_rows s).
Fixpoint jac_vals (x : nat -> Q) (rows : list row) : outcome (list Q) :=
  match rows with
  | [] => Ok []
  | r :: rows' => do ' (v, _) <- row_eval_grad x r; do vs <- jac_vals x rows'; Ok (v ++ vs)
  end.

(** eval_gi for an added row, lines 196-206: the value and the returned flag. *)
Definition q_eval_gi (x : nat -> Q) (i : nat) (s : qnlp) : outcome (Q * bool) :=
  if Nat.ltb i (s_m s) then Ok (0, true)      (* passed to the original problem *)
  else match nth_error (s_rows s) (i - s_m s) with
       | None => OutOfBounds
       | Some r => do ' (v, _) <- row_eval_f x r; Ok (v, false)
       end.

(** Histories of modifications. *)
Inductive qop :=
| OAddQuad (k : qcut)
| OAddLin (k : lcut)
| ORemove (idxs : list nat)
| OCopy
| OStruct.
Definition q_step (s : qnlp) (o : qop) : outcome qnlp :=
  match o with
  | OAddQuad k => q_add_quad k s
  | OAddLin k => q_add_lin k s
  | ORemove idxs => q_remove idxs s
  | OCopy => q_copy s
  | OStruct => do ' (_, s') <- q_hstruct s; Ok s'
  end.
Fixpoint q_run (s : qnlp) (ops : list qop) : outcome qnlp :=
  match ops with
  | [] => Ok s
  | o :: ops' => do s' <- q_step s o; q_run s' ops'
  end.
End Rows.

(** get_scaling_parameters, BonTMINLP2Quad.cpp 149-160: the function calls
    itself with m reduced by the number of added rows and first asserts that m
    is the number of constraints. *)
Fixpoint q_scaling (fuel : nat) (ncons nrows : nat) (m : nat) : outcome unit :=
  match fuel with
  | O => Diverges
  | S f => if Nat.eqb ncons m then q_scaling f ncons nrows (m - nrows) else AssertFail
  end.
