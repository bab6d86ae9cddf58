(** Model of phlite/src/matrices/{mod,adaptors,combinators,implementors}.rs. *)
From Verif Require Import Base Fields Columns.
Set Implicit Arguments.

(* ------------------------------------------------------------------ *)
(** ** Traits *)

(** [MatrixOracle] (matrices/mod.rs 78-101): the only required method is
    [column]; an iterator is the list of what it yields, [Panic] if producing or
    consuming it panics. *)
Definition oracle (K : coeffT) (C R : ordT) : Type := C -> res (list (K * R)).

(** [HasRowFiltration] (matrices/mod.rs 300-339).  [column_with_filtration] is
    a separate field because an implementor may override it. *)
Record fmatrix (K : coeffT) (C R F : ordT) : Type := FMatrix {
  m_col : oracle K C R;
  m_fil : R -> res F;
  m_colf : C -> res (list (entry F R K))
}.
Arguments FMatrix {K C R F} _ _ _.
Arguments m_col {K C R F} _ _.
Arguments m_fil {K C R F} _ _.
Arguments m_colf {K C R F} _ _.

(** matrices/mod.rs 309-319: the provided [column_with_filtration] *)
Definition default_colf {K : coeffT} {C R F : ordT} (col : oracle K C R) (fil : R -> res F) (c : C)
    : res (list (entry F R K)) :=
  do l <- col c;
  mapM (fun p => do f <- fil (snd p); Ok (entry_of_tuple (fst p, snd p, f))) l.

(** A [HasRowFiltration] impl that does not override [column_with_filtration]. *)
Definition fm_default {K : coeffT} {C R F : ordT} (col : oracle K C R) (fil : R -> res F) : fmatrix K C R F :=
  FMatrix col fil (default_colf col fil).

(** matrices/mod.rs 232-246 ([&M], likewise [Rc], [Arc], [Box], 248-294) and
    341-350: references forward [column] and [filtration_value] but use
    the provided [column_with_filtration]. *)
Definition by_ref {K : coeffT} {C R F : ordT} (m : fmatrix K C R F) : fmatrix K C R F :=
  fm_default (m_col m) (m_fil m).

(** matrices/mod.rs 331-338: [build_bhcol] ([empty_bhcol] is 323-325) *)
Definition build_bhcol (HI : heaps) {K : coeffT} {C R F : ordT} (m : fmatrix K C R F) (c : C)
    : res (bhcol HI F R K) :=
  do es <- m_colf m c; Ok (add_entries (empty_bhcol HI F R K) es).

(** [ColBasis] (matrices/mod.rs 355-391; [&T], 408-421, forwards) *)
Record basis (C : Type) : Type := Basis { b_size : nat; b_elem : nat -> res C }.
Arguments Basis {C} _ _.
Arguments b_size {C} _.
Arguments b_elem {C} _ _.

(** [SplitByDimension] (matrices/mod.rs 476-482; [&T], 484-493, forwards) *)
Record split_basis (C : Type) : Type := SplitBasis { sb_total : basis C; sb_dim : nat -> res (basis C) }.
Arguments SplitBasis {C} _ _.
Arguments sb_total {C} _.
Arguments sb_dim {C} _ _.

(** matrices/mod.rs 365-372: [construct_reverse_lookup]; collecting into a
    [HashMap] inserts in order, later keys overwrite *)
Definition reverse_lookup {C : ordT} (b : basis C) : res (kmap C nat) :=
  do ps <- mapM (fun i => do e <- b_elem b i; Ok (e, i)) (seq 0 (b_size b));
  Ok (fold_left (fun m p => map_insert (fst p) (snd p) m) ps []).

(** matrices/mod.rs 393-406: [ColBasis for Vec<T>] *)
Definition vec_basis {C : Type} (l : list C) : basis C := Basis (length l) (index l).

(* ------------------------------------------------------------------ *)
(** ** Adaptors *)

(** adaptors.rs 28-64: [WithTrivialFiltration] (built by mod.rs 132-137) *)
Definition with_trivial_filtration {K : coeffT} {C R : ordT} (m : oracle K C R) : fmatrix K C R unit_ord :=
  fm_default (F:=unit_ord) m (fun _ => Ok tt).

(** adaptors.rs 70-120: [WithFuncFiltration] (built by mod.rs 140-151) *)
Definition with_filtration {K : coeffT} {C R F : ordT} (m : oracle K C R) (f : R -> res F) : fmatrix K C R F :=
  fm_default m f.
(** adaptors.rs 75-80: [discard_filtration] *)
Definition discard_filtration {K : coeffT} {C R F : ordT} (m : fmatrix K C R F) : oracle K C R := m_col m.

(** adaptors.rs 126-185: [Consolidator] (built by mod.rs 200-205); its column iterator pops pivots until exhausted *)
Definition consolidate (HI : heaps) {K : coeffT} {C R : ordT} (m : oracle K C R) : oracle K C R :=
  fun c => do h <- build_bhcol HI (with_trivial_filtration m) c;
           do (es, _) <- drain_sorted h;
           Ok (map e_term es).
(** adaptors.rs 161-170: its filtration passes through; [column_with_filtration] is the provided one *)
Definition consolidate_f (HI : heaps) {K : coeffT} {C R F : ordT} (m : fmatrix K C R F) : fmatrix K C R F :=
  fm_default (consolidate HI (m_col m)) (m_fil m).

(** adaptors.rs 293-357: [MatrixWithBasis] (built by mod.rs 154-163) *)
Definition matrix_with_basis {K : coeffT} {C R F : ordT} (m : fmatrix K C R F) (b : basis C)
  : fmatrix K C R F * basis C := (fm_default (m_col m) (m_fil m), b).

(** adaptors.rs 363-394: [UsingColBasisIndex] (built by mod.rs 166-172) *)
Definition using_col_basis_index {K : coeffT} {C R : ordT} (m : oracle K C R) (b : basis C)
  : oracle K nat_ord R := fun i => do c <- b_elem b i; m c.
Definition using_col_basis_index_f {K : coeffT} {C R F : ordT} (m : fmatrix K C R F) (b : basis C)
  : fmatrix K nat_ord R F := fm_default (using_col_basis_index (m_col m) b) (m_fil m).

(** adaptors.rs 402-484: [WithSubBasis] (built by mod.rs 440-448) *)
Definition sub_matrix_in_dimension {K : coeffT} {C R F : ordT} (m : fmatrix K C R F) (sb : split_basis C) (d : nat)
  : fmatrix K C R F * res (basis C) := (fm_default (m_col m) (m_fil m), sb_dim sb d).

(** adaptors.rs 492-560: [ReverseMatrix] (built by mod.rs 175-182); [column] 514-520 *)
Definition reverse_oracle {K : coeffT} {C R : ordT} (m : oracle K C R) : oracle K (rev_ord C) (rev_ord R) :=
  fun c => do l <- m (unrev c); Ok (map (fun p => (fst p, Reverse (snd p))) l).
Definition reverse_f {K : coeffT} {C R F : ordT} (m : fmatrix K C R F)
  : fmatrix K (rev_ord C) (rev_ord R) (rev_ord F) :=
  @FMatrix K (rev_ord C) (rev_ord R) (rev_ord F)
    (reverse_oracle (m_col m))
    (fun r => do f <- m_fil m (unrev r); Ok (Reverse f))
    (fun c => do es <- m_colf m (unrev c);
              Ok (map (fun e => Entry (Reverse (e_fil e)) (Reverse (e_row e)) (e_coeff e)) es)).

(** adaptors.rs 592-605 (built by mod.rs 375-380): [ReverseBasis::element] is [Reverse(self.0.element(size - 1 - index))];
    the subtraction underflows when [index >= size], modelled as in a build with overflow checks
    (a release build asks the underlying basis for a wrapped, huge index) *)
Definition reverse_basis {C : Type} (b : basis C) : basis (reverse C) :=
  Basis (b_size b)
    (fun i => if i <? b_size b then do e <- b_elem b (b_size b - 1 - i); Ok (Reverse e) else Panic).
(** adaptors.rs 607-618: [SplitByDimension for ReverseBasis] (pointer cast of the sub-basis) *)
Definition reverse_split {C : Type} (sb : split_basis C) : split_basis (reverse C) :=
  SplitBasis (reverse_basis (sb_total sb)) (fun d => do b <- sb_dim sb d; Ok (reverse_basis b)).

(** adaptors.rs 629-698: [UnreverseMatrix] (built by mod.rs 187-195); [column] 645-651 *)
Definition unreverse_oracle {K : coeffT} {C R : ordT} (m : oracle K (rev_ord C) (rev_ord R)) : oracle K C R :=
  fun c => do l <- m (Reverse c); Ok (map (fun p : K * rev_ord R => (fst p, unrev (snd p))) l).
Definition unreverse_f {K : coeffT} {C R F : ordT} (m : fmatrix K (rev_ord C) (rev_ord R) (rev_ord F))
  : fmatrix K C R F :=
  FMatrix (unreverse_oracle (m_col m))
    (fun r => do f <- m_fil m (Reverse r); Ok (unrev f))
    (fun c => do es <- m_colf m (Reverse c);
              Ok (map (fun e : entry (rev_ord F) (rev_ord R) K => Entry (unrev (e_fil e)) (unrev (e_row e)) (e_coeff e)) es)).
(** adaptors.rs 721-738: [UnreverseBasis] (built by mod.rs 384-390) *)
Definition unreverse_basis {C : Type} (b : basis (reverse C)) : basis C :=
  Basis (b_size b)
    (fun i => if i <? b_size b then do e <- b_elem b (b_size b - 1 - i); Ok (unrev e) else Panic).
(** adaptors.rs 740-753: [SplitByDimension for UnreverseBasis] *)
Definition unreverse_split {C : Type} (sb : split_basis (reverse C)) : split_basis C :=
  SplitBasis (unreverse_basis (sb_total sb)) (fun d => do b <- sb_dim sb d; Ok (unreverse_basis b)).

(* ------------------------------------------------------------------ *)
(** ** Combinators *)

(** combinators.rs 37-46: [matrix_col_product!] *)
Definition matrix_col_product {K : coeffT} {C R : ordT} (m : oracle K C R) (col : list (K * C))
    : res (list (K * R)) :=
  flat_mapM (fun p => do lc <- m (snd p);
                      Ok (map (fun q => (k_mul (fst q) (fst p), snd q)) lc)) col.

(** combinators.rs 17-24, 48-69: [product] and [Product::column] *)
Definition product {K : coeffT} {C J R : ordT} (left : oracle K J R) (right : oracle K C J) : oracle K C R :=
  fun c => do rc <- right c; matrix_col_product left rc.

(** combinators.rs 71-97: [HasRowFiltration for Product] *)
Definition product_f {K : coeffT} {C J R F : ordT} (left : fmatrix K J R F) (right : oracle K C J)
  : fmatrix K C R F :=
  FMatrix (product (m_col left) right) (m_fil left)
    (fun c => do rc <- right c;
       flat_mapM (fun p => do lc <- m_colf left (snd p);
                           Ok (map (fun e => Entry (e_fil e) (e_row e) (k_mul (e_coeff e) (fst p))) lc)) rc).

(** combinators.rs 99-112: column basis of a product is that of the right factor *)
Definition product_basis {C J : Type} (left : basis J) (right : basis C) : basis C := right.

(** combinators.rs 122-129, 140-153: [sum] and [Sum::column] *)
Definition sum {K : coeffT} {C R : ordT} (left right : oracle K C R) : oracle K C R :=
  fun c => do l <- left c; do r <- right c; Ok (l ++ r).

(* ------------------------------------------------------------------ *)
(** ** [eq_on_col] (matrices/mod.rs 104-126) *)

(** mod.rs 125: [itertools::equal] on (coefficient, row, ()) tuples *)
Fixpoint terms_eqb {K : coeffT} {R : ordT} (a b : list (K * R)) : bool :=
  match a, b with
  | [], [] => true
  | (c, r) :: a, (d, s) :: b => k_eqb c d && oeqb r s && terms_eqb a b
  | _, _ => false
  end.

Definition eq_on_col (HI : heaps) {K : coeffT} {C R : ordT} (m1 m2 : oracle K C R) (c : C) : res bool :=
  do h1 <- build_bhcol HI (with_trivial_filtration m1) c;
  do (es1, _) <- drain_sorted h1;
  do h2 <- build_bhcol HI (with_trivial_filtration m2) c;
  do (es2, _) <- drain_sorted h2;
  Ok (terms_eqb (map e_term es1) (map e_term es2)).

(* ------------------------------------------------------------------ *)
(** ** Concrete matrices (implementors.rs) *)

(** implementors.rs 25-29, 65-78: [VecVecMatrix] *)
Definition vecvec_column {K : coeffT} {R : ordT} (cols : list (list (K * R))) : oracle K nat_ord R :=
  fun c => unwrap (nth_error cols c).
(** implementors.rs 80-92, 129-158: its basis is [StandardBasis { n_cols }], whose [element] never fails *)
Definition standard_basis (n : nat) : basis nat := Basis n (fun i => Ok i).
Definition vecvec_basis {K : coeffT} {R : ordT} (cols : list (list (K * R))) : basis nat := standard_basis (length cols).
(** implementors.rs 96-107; the [From] impls (37-63) store the given columns unchanged too *)
Definition vecvec_new {K : coeffT} {R : ordT} (cols : list (list (K * R))) : list (list (K * R)) := cols.
(** implementors.rs 110-120 *)
Definition vecvec_new_all_one {K : coeffT} {R : ordT} (cols : list (list R)) : list (list (K * R)) :=
  vecvec_new (map (map (fun r => (k_one, r))) cols).
(** implementors.rs 169-196: [MapVecMatrix]; its [From] impls (198-224) store the given map unchanged *)
Definition mapvec_column {K : coeffT} {C R : ordT} (cols : kmap C (list (K * R))) : oracle K C R :=
  fun c => unwrap (map_get c cols).

(* ------------------------------------------------------------------ *)
(** ** [WithCachedCols] (adaptors.rs 193-285) as a state machine *)

(** The [RefCell]'s contents, the column iterators handed out so far, and
    a ghost log of the columns requested from the wrapped matrix.  Iterator number [i] is
    [Some rest] while it holds its [Ref] (shared borrow) and has [rest] still to yield,
    [None] once it has been dropped or has reported its end. *)
Record cache_state (K : coeffT) (C R : ordT) : Type := CacheState {
  cs_cache : kmap C (list (K * R));
  cs_iters : list (option (list (K * R)));
  cs_log : list C
}.
Arguments CacheState {K C R} _ _ _.
Arguments cs_cache {K C R} _.
Arguments cs_iters {K C R} _.
Arguments cs_log {K C R} _.

(** adaptors.rs 193-198 with [cache_cols] (matrices/mod.rs 212-221): a fresh cache *)
Definition cache_init {K : coeffT} {C R : ordT} : cache_state K C R := CacheState [] [] [].

(** adaptors.rs 240-247: some [Ref] into the cell is alive: [borrow_mut] would panic *)
Definition cache_borrowed {K : coeffT} {C R : ordT} (s : cache_state K C R) : bool :=
  existsb (fun o => match o with Some _ => true | None => false end) (cs_iters s).

(** adaptors.rs 234-255: [WithCachedCols::column]; returns the new iterator's number *)
Definition cache_column {K : coeffT} {C R : ordT} (m : oracle K C R) (s : cache_state K C R) (c : C)
    : res (nat * cache_state K C R) :=
  do s' <- (if map_mem c (cs_cache s) then Ok s
            else do v <- m c;
                 if cache_borrowed s then Panic
                 else Ok (CacheState (map_insert c v (cs_cache s)) (cs_iters s) (cs_log s ++ [c])));
  do v <- unwrap (map_get c (cs_cache s'));
  Ok (length (cs_iters s'), CacheState (cs_cache s') (cs_iters s' ++ [Some v]) (cs_log s')).

Fixpoint set_nth {A} (l : list A) (i : nat) (a : A) : list A :=
  match l, i with
  | [], _ => []
  | _ :: t, O => a :: t
  | x :: t, S i => x :: set_nth t i a
  end.

(** adaptors.rs 206-222: [CachedColIter::next] followed by the cloning map of line 254 *)
Definition cache_next {K : coeffT} {C R : ordT} (s : cache_state K C R) (i : nat)
    : option (K * R) * cache_state K C R :=
  match nth_error (cs_iters s) i with
  | Some (Some (x :: rest)) => (Some x, CacheState (cs_cache s) (set_nth (cs_iters s) i (Some rest)) (cs_log s))
  | Some (Some []) => (None, CacheState (cs_cache s) (set_nth (cs_iters s) i None) (cs_log s))
  | _ => (None, s)
  end.

(** adaptors.rs 202-204 ([Ref] in [CachedColIter]): dropping an iterator releases its borrow *)
Definition cache_drop {K : coeffT} {C R : ordT} (s : cache_state K C R) (i : nat) : cache_state K C R :=
  CacheState (cs_cache s) (set_nth (cs_iters s) i None) (cs_log s).

(** a client's calls *)
Inductive cache_op (C : Type) : Type :=
| OpColumn (c : C)
| OpNext (i : nat)
| OpDrop (i : nat).
Arguments OpColumn {C} c.
Arguments OpNext {C} i.
Arguments OpDrop {C} i.

(** what the client observes *)
Inductive cache_obs (K R : Type) : Type :=
| ObsIter (i : nat)
| ObsItem (i : nat) (x : option (K * R))
| ObsUnit.
Arguments ObsIter {K R} i.
Arguments ObsItem {K R} i x.
Arguments ObsUnit {K R}.

Definition cache_step {K : coeffT} {C R : ordT} (m : oracle K C R) (s : cache_state K C R) (op : cache_op C)
    : res (cache_obs K R * cache_state K C R) :=
  match op with
  | OpColumn c => do (i, s') <- cache_column m s c; Ok (ObsIter i, s')
  | OpNext i => let '(x, s') := cache_next s i in Ok (ObsItem i x, s')
  | OpDrop i => Ok (ObsUnit, cache_drop s i)
  end.

Fixpoint cache_run {K : coeffT} {C R : ordT} (m : oracle K C R) (s : cache_state K C R) (ops : list (cache_op C))
    : res (list (cache_obs K R) * cache_state K C R) :=
  match ops with
  | [] => Ok ([], s)
  | op :: ops => do (o, s') <- cache_step m s op; do (os, s'') <- cache_run m s' ops; Ok (o :: os, s'')
  end.
