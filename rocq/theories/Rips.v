(** Model of phlite_rips/src/{lib,homology,cohomology}.rs.

    [uw] is [usize::MAX + 1]; arithmetic that could leave the word panics, as in a build with
    overflow checks (the release behaviour of [from_indices] is [from_indices_wrapping]).
    [F] is [NotNan<f64>] up to numerical equality and [z] is its zero; nothing else about floats is used.
    Vertices and lengths are [nat]; indices of simplices ([RipsIndex]) are binary numbers [N]. *)
From Verif Require Import Base Fields FieldsFacts Columns Matrices Reduction.
Set Implicit Arguments.

(** lib.rs 20-21: [RipsIndex] with its derived order *)
Definition rips_index : ordT := N_ord.

Definition checked (uw x : N) : res N := if (x <? uw)%N then Ok x else Panic.

(** [Iterator::max] *)
Definition iter_max {F : ordT} (l : list F) : option F :=
  match l with [] => None | x :: t => Some (fold_left omax t x) end.

(** lib.rs 33-42: [to_vec].  The loop divides by the base at least once per round, so the
    bit length of the index bounds the number of rounds; [remainder - 1] underflows on the digit 0. *)
Fixpoint to_vec_loop (fuel : nat) (base working : N) : res (list nat) :=
  match fuel with
  | O => NoFuel
  | S fuel =>
      if (working =? 0)%N then Ok [] else
      let remainder := (working mod base)%N in
      if (remainder =? 0)%N then Panic else
      do rest <- to_vec_loop fuel base (working / base)%N;
      Ok (N.to_nat (remainder - 1) :: rest)
  end.
Definition to_vec (n_points : nat) (i : N) : res (list nat) :=
  to_vec_loop (S (N.size_nat i)) (N.of_nat n_points + 1) i.

(** lib.rs 45-55: [from_indices].  [n_points + 1] cannot overflow ([n_points] is the length of a
    vector) and [coeff + 1] overflows only if the product that follows does. *)
Definition from_indices (uw : N) (n_points : nat) (indices : list nat) : res (option N) :=
  do inner <- foldM (fun acc (p : nat * nat) =>
                do pw <- checked uw ((N.of_nat n_points + 1) ^ N.of_nat (fst p))%N;
                do t <- checked uw (pw * (N.of_nat (snd p) + 1))%N;
                checked uw (acc + t)%N)
             (combine (seq 0 (length indices)) indices) 0%N;
  Ok (if (0 <? inner)%N then Some inner else None).

(** the same in a build without overflow checks *)
Definition from_indices_wrapping (uw : N) (n_points : nat) (indices : list nat) : option N :=
  let inner := fold_left (fun acc (p : nat * nat) =>
      ((acc + ((N.of_nat n_points + 1) ^ N.of_nat (fst p) mod uw) * ((N.of_nat (snd p) + 1) mod uw)) mod uw)%N)
    (combine (seq 0 (length indices)) indices) 0%N in
  if (0 <? inner)%N then Some inner else None.

(** lib.rs 57-59: [dimension]; [len() - 1] underflows for the empty vector *)
Definition rips_dimension (n_points : nat) (i : N) : res nat :=
  do v <- to_vec n_points i;
  match length v with O => Panic | S k => Ok k end.

(* ------------------------------------------------------------------ *)
(** ** Bases *)

(** lib.rs 74-90: [SingleDimRipsBasisWithFilt] *)
Definition single_basis {F : ordT} (l : list (F * N)) : basis rips_index :=
  Basis (length l) (fun i => do p <- index l i; Ok (snd p)).

(** lib.rs 104-112: the loop of [element], [working] being reduced by the size of each dimension passed *)
Fixpoint multi_element {A : Type} (bases : list (basis A)) (working : nat) : res A :=
  match bases with
  | [] => Panic
  | b :: rest => if b_size b <=? working then multi_element rest (working - b_size b) else b_elem b working
  end.
(** lib.rs 101-129: [MultiDimRipsBasisWithFilt] *)
Definition multi_basis {A : Type} (bases : list (basis A)) : split_basis A :=
  SplitBasis (Basis (list_sum (map b_size bases)) (multi_element bases)) (fun d => index bases d).

(** [bases[d].0.push(x)] *)
Fixpoint push_at {A : Type} (bases : list (list A)) (d : nat) (x : A) : res (list (list A)) :=
  match bases, d with
  | [], _ => Panic
  | b :: rest, O => Ok ((b ++ [x]) :: rest)
  | b :: rest, S d => do rest <- push_at rest d x; Ok (b :: rest)
  end.

(** [sort_unstable] on a type whose equal elements are identical: any correct sort has this result *)
Fixpoint insert_sorted {T : ordT} (x : T) (l : list T) : list T :=
  match l with [] => [x] | y :: t => if oleb x y then x :: l else y :: insert_sorted x t end.
Definition sort_unstable {T : ordT} (l : list T) : list T := fold_right insert_sorted [] l.

Section Build.
  Context {F : ordT}.
  Variables (uw : N) (z : F) (distances : list (list F)) (max_dim : nat).
  Let n_vertices := length distances.

  (** [distances[w][v]] *)
  Definition dist_at (w v : nat) : res F := do row <- index distances w; index row v.

  (** lib.rs 137-178: [add_cofacets]; the state is ([bases], [simplex_as_vec]).  The recursion
      depth is at most [n_vertices] because the last vertex grows. *)
  Fixpoint add_cofacets (fuel : nat) (st : list (list (F * N)) * list nat) (fil_value : F)
      : res (list (list (F * N)) * list nat) :=
    match fuel with
    | O => NoFuel
    | S fuel =>
        let '(bases, simplex_as_vec) := st in
        do max_element <- unwrap (nth_error (rev simplex_as_vec) 0);                  (* 145 *)
        let new_dimension := length simplex_as_vec - 1 + 1 in                          (* 146-147 *)
        if max_element =? n_vertices - 1 then Ok st else                               (* 148-151 *)
        foldM (fun (st : list (list (F * N)) * list nat) v =>
            let '(bases, simplex_as_vec) := st in
            do ds <- mapM (fun w => dist_at w v) simplex_as_vec;                       (* 154-158 *)
            do f <- unwrap (iter_max ds);
            let f := omax f fil_value in                                               (* 159 *)
            let simplex_as_vec := simplex_as_vec ++ [v] in                             (* 161 *)
            do oi <- from_indices uw n_vertices simplex_as_vec;                        (* 163 *)
            do idx <- unwrap oi;
            do bases <- push_at bases new_dimension (f, idx);                          (* 164 *)
            do (bases, simplex_as_vec) <-
              (if new_dimension <? max_dim                                             (* 166-174 *)
               then add_cofacets fuel (bases, simplex_as_vec) f
               else Ok (bases, simplex_as_vec));
            Ok (bases, removelast simplex_as_vec))                                     (* 176 *)
          (seq (max_element + 1) (n_vertices - (max_element + 1))) st
    end.

  (** lib.rs 180-208: [build_rips_bases] *)
  Definition build_rips_bases : res (list (list (F * N))) :=
    do bases <- foldM (fun bases v =>
        do oi <- from_indices uw n_vertices [v];
        do idx <- unwrap oi;
        do bases <- push_at bases 0 (z, idx);                                          (* 190-193 *)
        do (bases, _) <- add_cofacets (S n_vertices) (bases, [v]) z;                   (* 194-200 *)
        Ok bases) (seq 0 n_vertices) (repeat [] (max_dim + 1));
    Ok (map (@sort_unstable (pair_ord F rips_index)) bases).                           (* 203-206 *)
End Build.

(** the [MultiDimRipsBasisWithFilt] built from the vectors of each dimension *)
Definition rips_split {F : ordT} (bases : list (list (F * N))) : split_basis rips_index :=
  multi_basis (map single_basis bases).

(** lib.rs 210-224: [max_pairwise_distance] *)
Definition max_pairwise_distance {F : ordT} (distances : list (list F)) (vertices : list nat) : res F :=
  do ds <- flat_mapM (fun i => mapM (fun j =>
      do v_i <- index vertices i; do v_j <- index vertices j; dist_at distances v_i v_j)
      (seq 0 (length vertices))) (seq 0 (length vertices));
  unwrap (iter_max ds).

Section Matrices.
  Context {K : coeffT} {F : ordT}.
  Variables (uw : N) (distances : list (list F)).
  Let n_points := length distances.

  (** homology.rs 52-58 and cohomology.rs 92-96 *)
  Definition parity (i : nat) : K := if Nat.even i then k_one else k_neg k_one.

  (** homology.rs 63-68: all but the [i]th vertex *)
  Definition all_but (i : nat) (l : list nat) : list nat :=
    map snd (filter (fun p : nat * nat => negb (fst p =? i)) (combine (seq 0 (length l)) l)).

  (** homology.rs 47-73: [RipsBoundary::column] *)
  Definition rips_boundary_column : oracle K rips_index rips_index := fun col =>
    do index_as_vec <- to_vec n_points col;
    filter_mapM (fun i =>
      do o <- from_indices uw n_points (all_but i index_as_vec);
      Ok (match o with Some idx => Some (parity i, idx) | None => None end))
      (seq 0 (length index_as_vec)).

  (** homology.rs 86-89 and cohomology.rs 128-131: [filtration_value] *)
  Definition rips_filtration_value (row : rips_index) : res F :=
    do as_vec <- to_vec n_points row; max_pairwise_distance distances as_vec.

  (** homology.rs 83-92: [RipsBoundary] does not override [column_with_filtration] *)
  Definition rips_boundary : fmatrix K rips_index rips_index F :=
    fm_default rips_boundary_column rips_filtration_value.

  (** cohomology.rs 56-83: the search loop of [CoboundaryIterator::next] *)
  Fixpoint cob_seek (fuel : nat) (base : list nat) (max_vertex next_vertex pos : nat) : res (option (nat * nat)) :=
    match fuel with
    | O => NoFuel
    | S fuel =>
        if max_vertex <? next_vertex then Ok None else
        match nth_error base pos with
        | None => Ok (Some (next_vertex, pos))
        | Some v =>
            match Nat.compare v next_vertex with
            | Lt => cob_seek fuel base max_vertex next_vertex (pos + 1)
            | Eq => cob_seek fuel base max_vertex (next_vertex + 1) pos
            | Gt => Ok (Some (next_vertex, pos))
            end
        end
    end.
  (** cohomology.rs 52-99: [next]; the third component of the item is [self.next_vertex]
      {e after} it has been incremented (98-99) *)
  Definition cob_next (base : list nat) (max_vertex : nat) (st : nat * nat)
      : res (option ((K * rips_index * nat) * (nat * nat))) :=
    do o <- cob_seek (length base + max_vertex + 2) base max_vertex (fst st) (snd st);
    match o with
    | None => Ok None
    | Some (nv, pos) =>
        if length base <? pos then Panic else                       (* split_at, 85 *)
        do oi <- from_indices uw (max_vertex + 1) (firstn pos base ++ [nv] ++ skipn pos base);
        do idx <- unwrap oi;
        Ok (Some ((parity pos, idx, nv + 1), (nv + 1, pos)))
    end.
  (** the iterator run to its end *)
  Fixpoint cob_collect (fuel : nat) (base : list nat) (max_vertex : nat) (st : nat * nat)
      : res (list (K * rips_index * nat)) :=
    match fuel with
    | O => NoFuel
    | S fuel =>
        do o <- cob_next base max_vertex st;
        match o with
        | None => Ok []
        | Some (item, st) => do rest <- cob_collect fuel base max_vertex st; Ok (item :: rest)
        end
    end.
  (** cohomology.rs 36-44: [CoboundaryIterator::new]; [n_points - 1] underflows for no points *)
  Definition coboundary_iter (base : list nat) (n : nat) : res (list (K * rips_index * nat)) :=
    match n with
    | O => Panic
    | S max_vertex => cob_collect (max_vertex + 2) base max_vertex (0, 0)
    end.

  (** cohomology.rs 114-121: [RipsCoboundary::column] *)
  Definition rips_coboundary_column : oracle K rips_index rips_index := fun col =>
    do base <- to_vec n_points col;
    do items <- coboundary_iter base n_points;
    Ok (map fst items).

  (** cohomology.rs 134-161: the overridden [column_with_filtration] *)
  Definition rips_coboundary_colf (col : rips_index) : res (list (entry F rips_index K)) :=
    do base <- to_vec n_points col;
    do col_vertices <- to_vec n_points col;
    do max_pd_amongst_col <- max_pairwise_distance distances col_vertices;
    do items <- coboundary_iter base n_points;
    mapM (fun item : K * rips_index * nat =>
      let '(coeff, row_index, inserted_vertex) := item in
      do ds <- mapM (fun v => dist_at distances v inserted_vertex) col_vertices;
      do max_to_inserted <- unwrap (iter_max ds);
      Ok (Entry (omax max_pd_amongst_col max_to_inserted) row_index coeff)) items.

  Definition rips_coboundary : fmatrix K rips_index rips_index F :=
    FMatrix rips_coboundary_column rips_filtration_value rips_coboundary_colf.
End Matrices.

(** homology.rs 99-113: [build_rips_boundary_matrix], a [MatrixWithBasis] *)
Definition build_rips_boundary_matrix {K : coeffT} {F : ordT} (uw : N) (z : F) (distances : list (list F)) (max_dim : nat)
    : res (fmatrix K rips_index rips_index F * split_basis rips_index) :=
  do bases <- build_rips_bases uw z distances max_dim;
  Ok (fst (matrix_with_basis (rips_boundary uw distances) (sb_total (rips_split bases))), rips_split bases).

(** cohomology.rs 164-179: [build_rips_coboundary_matrix] *)
Definition build_rips_coboundary_matrix {K : coeffT} {F : ordT} (uw : N) (z : F) (distances : list (list F)) (max_dim : nat)
    : res (fmatrix K rips_index rips_index F * split_basis rips_index) :=
  do bases <- build_rips_bases uw z distances max_dim;
  Ok (fst (matrix_with_basis (rips_coboundary uw distances) (sb_total (rips_split bases))), rips_split bases).

(** main.rs 48-72 (the CLI after parsing): build, reverse, reduce with clearing in dimensions
    [0..=max_dim]; the algorithm receives a reference *)
Definition rips_cohomology (HI : heaps) {K : coeffT} {F : ordT} (fuel : nat) (uw : N) (z : F)
    (distances : list (list F)) (max_dim : nat)
    : res (rc_map (K:=K) (C:=rev_ord rips_index) * diagram (rev_ord rips_index)) :=
  do (m, sb) <- build_rips_coboundary_matrix (K:=K) uw z distances max_dim;
  build_with_diagram HI fuel (by_ref (reverse_f m)) (reverse_split sb) (seq 0 (max_dim + 1)).

(** main.rs 16-87: the command-line program after its input has been parsed (22-43).  Returns what is printed: the basis sizes
    (51-54), for each essential class its dimension, index and birth (74-78), and for each reported pair its dimension,
    indices and times (80-86), in the order in which the hash sets yield them.  [sub] is subtraction and [eps] is 0.01.
    The product at 70 is built but never evaluated. *)
Definition rips_main (HI : heaps) {F : ordT} (fuel : nat) (uw : N) (z : F) (sub : F -> F -> F) (eps : F)
    (distances : list (list F)) (max_dim : nat)
    : res (list nat * list (nat * N * F) * list (nat * (N * N) * (F * F))) :=
  let n_points := length distances in
  do (m, sb) <- build_rips_coboundary_matrix (K:=Z2_coeff) uw z distances max_dim;
  let coboundary := reverse_f m in
  do sizes <- mapM (fun dim => do b <- sb_dim (reverse_split sb) dim; Ok (b_size b)) (seq 0 (max_dim + 1));
  do (_, dg) <- build_with_diagram HI fuel (by_ref coboundary) (reverse_split sb) (seq 0 (max_dim + 1));
  do ess <- mapM (fun idx : rev_ord rips_index =>
      do f_val <- m_fil coboundary idx;
      do dim <- rips_dimension n_points (unrev idx);
      Ok (dim, unrev idx, unrev f_val)) (essential dg);
  do prs <- flat_mapM (fun tup : rev_ord rips_index * rev_ord rips_index =>
      do dim <- rips_dimension n_points (unrev (snd tup));
      do birth_f <- m_fil coboundary (snd tup);
      do death_f <- m_fil coboundary (fst tup);
      Ok (if oltb eps (sub (unrev death_f) (unrev birth_f))
          then [(dim, (unrev (snd tup), unrev (fst tup)), (unrev birth_f, unrev death_f))] else [])) (pairings dg);
  Ok (sizes, ess, prs).
