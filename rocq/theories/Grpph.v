(** Model of phlite_grpph/src/{coboundary,boundary,lib}.rs.

    Vertices ([u16]) are [nat]; [F] is [NotNan<f64>] up to numerical equality, [z] its zero and [inf] its
    [f64::INFINITY].  An iterator is the list of what it yields, [Panic] if consuming it panics. *)
From Verif Require Import Base Fields FieldsFacts Columns Matrices Reduction Rips GrpphCells.
Set Implicit Arguments.

Notation edge_ord := (pair_ord nat_ord nat_ord).

(** coboundary.rs 47-49: [DigraphFiltration::edge_time] *)
Definition dfil (F : ordT) : Type := nat -> nat -> res (option F).
(** coboundary.rs 54-58: [VecDigraphFiltration]; indexing out of range panics *)
Definition vec_filtration {F : ordT} (v : list (list (option F))) : dfil F :=
  fun s t => do row <- index v s; index row t.
(** coboundary.rs 60-64: [MapDigraphFiltration] *)
Definition map_filtration {F : ordT} (m : kmap edge_ord F) : dfil F :=
  fun s t => Ok (@map_get edge_ord F (s, t) m).

(** [Iterator::min] *)
Definition iter_min {T : ordT} (l : list T) : option T :=
  match l with [] => None | x :: t => Some (fold_left (fun m y => if oltb y m then y else m) t x) end.

Section Coboundary.
  Context {K : coeffT} {F : ordT}.
  Variables (z inf : F) (filtration : dfil F) (edge_set : list edge_ord) (n_vertices : nat).

  (** coboundary.rs 75-86: [two_path_time]; [?] returns early *)
  Definition two_path_time (a b c : nat) : res (option F) :=
    do ab <- filtration a b;
    match ab with
    | None => Ok None
    | Some ab_time =>
        do bc <- filtration b c;
        match bc with
        | None => Ok None
        | Some bc_time => Ok (Some (omax ab_time bc_time))
        end
    end.

  Section Bridge.
  Variable bridge_map : kmap edge_ord nat.

  (** coboundary.rs 91-146: [two_path_to_two_cell_in_filtration] *)
  Definition two_path_to_two_cell (a b c : nat) : res (option (cell2 * F) * bool) :=
    do abc <- two_path_time a b c;
    match abc with
    | None => Ok (None, false)                                                     (* 99-101 *)
    | Some abc_time =>
        if a =? c then Ok (Some (DoubleEdge a b, abc_time), false) else           (* 103-105 *)
        do ac <- filtration a c;
        match ac with
        | Some ac_time =>
            if oleb ac_time abc_time
            then Ok (Some (DirectedTriangle a b c, abc_time), false)               (* 108-112 *)
            else
              do primary_bridge <- unwrap (@map_get edge_ord nat (a, c) bridge_map);
              if b =? primary_bridge
              then Ok (Some (DirectedTriangle a b c, ac_time), true)               (* 117-123 *)
              else Ok (Some (LongSquare a primary_bridge b c, abc_time), false)    (* 124-129 *)
        | None =>
            do primary_bridge <- unwrap (@map_get edge_ord nat (a, c) bridge_map);
            if b =? primary_bridge
            then Ok (None, true)                                                   (* 135-138 *)
            else Ok (Some (LongSquare a primary_bridge b c, abc_time), false)
        end
    end.

  (** coboundary.rs 151-176: [produce_long_squares_with_primary_bridge] *)
  Definition long_squares (a b c : nat) : res (list (cell2 * F)) :=
    do ac <- filtration a c;
    let ac_time := match ac with Some t => t | None => inf end in
    filter_mapM (fun i =>
        do aic <- two_path_time a i c;
        Ok (match aic with
            | None => None
            | Some aic_time => if oleb ac_time aic_time then None else Some (LongSquare a b i c, aic_time)
            end))
      (filter (fun i => negb (i =? c)) (filter (fun i => negb (i =? b)) (filter (fun i => negb (i =? a))
         (seq 0 n_vertices)))).

  (** coboundary.rs 180-199: [two_path_to_all_two_cells_in_filtration] *)
  Definition two_path_to_all_two_cells (a b c : nat) : res (list (K * cell2 * F)) :=
    do (cell, is_pb) <- two_path_to_two_cell a b c;
    let cell := match cell with Some (cell, f_time) => [(k_one, cell, f_time)] | None => [] end in
    do squares <- (if is_pb : bool then long_squares a b c else Ok []);
    Ok (cell ++ map (fun p : cell2 * F => (k_neg k_one, fst p, snd p)) squares).

  (** coboundary.rs 202-242: [produce_triangle_base_coboundary] *)
  Definition triangle_base_coboundary (s t : nat) : res (option (list (K * cell2 * F))) :=
    do st <- filtration s t;
    match st with
    | None => Ok None                                                              (* 210 *)
    | Some st_time =>
        let bridge_collapse_col :=
          match @map_get edge_ord nat (s, t) bridge_map with                       (* 213-220 *)
          | Some pb => [(k_neg k_one, DirectedTriangle s pb t, st_time)]
          | None => []
          end in
        do conventional_triangles <- filter_mapM (fun b =>                         (* 223-239 *)
            do sbt <- two_path_time s b t;
            Ok (match sbt with
                | None => None
                | Some sbt_time =>
                    if oltb sbt_time st_time then None
                    else Some (k_neg k_one, DirectedTriangle s b t, sbt_time)
                end))
          (filter (fun b => negb (t =? b)) (filter (fun b => negb (s =? b)) (seq 0 n_vertices)));
        Ok (Some (bridge_collapse_col ++ conventional_triangles))
    end.

  (** coboundary.rs 244-266: [produce_edge_total_coboundary] *)
  Definition edge_total_coboundary (s t : nat) : res (list (K * cell2 * F)) :=
    do part_1 <- flat_mapM (fun i => two_path_to_all_two_cells i s t) (filter (fun i => negb (i =? s)) (seq 0 n_vertices));
    do part_2 <- triangle_base_coboundary s t;
    let part_2 := match part_2 with Some l => l | None => [] end in
    do part_3 <- flat_mapM (fun i => two_path_to_all_two_cells s t i) (filter (fun i => negb (i =? t)) (seq 0 n_vertices));
    Ok (part_1 ++ part_2 ++ part_3).
  End Bridge.

  (** coboundary.rs 269-303: [produce_node_total_coboundary] *)
  Definition node_total_coboundary (s : nat) : res (list (K * cell * F)) :=
    do outgoing <- filter_mapM (fun j =>
        if @set_mem edge_ord (s, j) edge_set then Ok (Some (k_neg k_one, Edge s j, z))
        else do time <- filtration s j;
             Ok (match time with None => None | Some time => Some (k_neg k_one, Edge s j, time) end))
      (seq 0 n_vertices);
    do incoming <- filter_mapM (fun j =>
        if @set_mem edge_ord (j, s) edge_set then Ok (Some (k_one, Edge j s, z))
        else do time <- filtration j s;
             Ok (match time with None => None | Some time => Some (k_one, Edge j s, time) end))
      (seq 0 n_vertices);
    Ok (outgoing ++ incoming).

  (** coboundary.rs 321-345: [build_primary_bridge_map] *)
  Definition build_primary_bridge_map : res (kmap edge_ord nat) :=
    foldM (fun map s => foldM (fun map t =>
        do times <- filter_mapM (fun i =>
            do time <- two_path_time s i t;
            Ok (match time with None => None | Some time => Some (time, i) end)) (seq 0 n_vertices);
        match @iter_min (pair_ord F nat_ord) times with
        | None => Ok map
        | Some (time, bridge_vertex) =>
            do st <- filtration s t;
            match st with
            | Some st_time =>
                if oleb st_time time then Ok map                                   (* 335-337: [continue] *)
                else Ok (@map_insert edge_ord nat (s, t) bridge_vertex map)
            | None => Ok (@map_insert edge_ord nat (s, t) bridge_vertex map)
            end
        end) (seq 0 n_vertices) map) (seq 0 n_vertices) [].

  (** coboundary.rs 347-382: [build_basis]; the edge set is iterated in an unspecified order *)
  Definition build_basis : res (list (list (F * cell))) :=
    let degree_0 := map (fun i => (z, Node i)) (seq 0 n_vertices) in
    let degree_1 := map (fun e : edge_ord => (z, Edge (fst e) (snd e))) edge_set in
    do others <- flat_mapM (fun i => filter_mapM (fun j =>
        if @set_mem edge_ord (i, j) edge_set then Ok None
        else do time <- filtration i j;
             Ok (match time with None => None | Some time => Some (time, Edge i j) end)) (seq 0 n_vertices))
      (seq 0 n_vertices);
    Ok [@sort_unstable (pair_ord F cell_ord) degree_0; @sort_unstable (pair_ord F cell_ord) (degree_1 ++ others)].

  (** coboundary.rs 443-473: [GrPPHCoboundary::column] *)
  Definition grpph_coboundary_column (bridge_map : kmap edge_ord nat) : oracle K cell_ord cell_ord := fun col =>
    match col with
    | Node s => do l <- node_total_coboundary s; Ok (map fst l)
    | Edge s t => do l <- edge_total_coboundary bridge_map s t;
                  Ok (map (fun p : K * cell2 * F => (fst (fst p), TwoCell (snd (fst p)))) l)
    | TwoCell _ => Panic
    end.

  (** coboundary.rs 504-533 and boundary.rs 92-121: [filtration_value] *)
  Definition grpph_filtration_value (row : cell_ord) : res F :=
    match row with
    | Node _ => Ok z
    | Edge s t =>
        if @set_mem edge_ord (s, t) edge_set then Ok z
        else do time <- filtration s t; unwrap time
    | TwoCell (DoubleEdge a b) => do aba <- two_path_time a b a; unwrap aba
    | TwoCell (DirectedTriangle a b c) =>
        do abc <- two_path_time a b c; do abc_time <- unwrap abc;
        do ac <- filtration a c; do ac_time <- unwrap ac;
        Ok (omax abc_time ac_time)
    | TwoCell (LongSquare a b c d) =>
        do abd <- two_path_time a b d; do abd_time <- unwrap abd;
        do acd <- two_path_time a c d; do acd_time <- unwrap acd;
        Ok (omax abd_time acd_time)
    end.

  (** coboundary.rs 535-566: the overridden [column_with_filtration] *)
  Definition grpph_coboundary_colf (bridge_map : kmap edge_ord nat) (col : cell_ord) : res (list (entry F cell_ord K)) :=
    match col with
    | Node s => do l <- node_total_coboundary s;
                Ok (map (fun p : K * cell * F => @Entry F cell_ord K (snd p) (snd (fst p)) (fst (fst p))) l)
    | Edge s t => do l <- edge_total_coboundary bridge_map s t;
                  Ok (map (fun p : K * cell2 * F => @Entry F cell_ord K (snd p) (TwoCell (snd (fst p))) (fst (fst p))) l)
    | TwoCell _ => Panic
    end.

  Definition grpph_coboundary (bridge_map : kmap edge_ord nat) : fmatrix K cell_ord cell_ord F :=
    FMatrix (grpph_coboundary_column bridge_map) grpph_filtration_value (grpph_coboundary_colf bridge_map).

  (** boundary.rs 49-82: [GrPPHBoundary::column] *)
  Definition grpph_boundary_column : oracle K cell_ord cell_ord := fun col => Ok
    match col with
    | Node _ => []
    | Edge s t => [(k_one, Node t); (k_neg k_one, Node s)]
    | TwoCell (DoubleEdge a b) => [(k_one, Edge a b); (k_one, Edge b a)]
    | TwoCell (DirectedTriangle a b c) => [(k_one, Edge b c); (k_neg k_one, Edge a c); (k_one, Edge a b)]
    | TwoCell (LongSquare a b c d) =>
        [(k_one, Edge c d); (k_one, Edge a c); (k_neg k_one, Edge b d); (k_neg k_one, Edge a b)]
    end.
  (** boundary.rs 85-122: [column_with_filtration] is not overridden *)
  Definition grpph_boundary : fmatrix K cell_ord cell_ord F := fm_default grpph_boundary_column grpph_filtration_value.
End Coboundary.

(** coboundary.rs 384-394: [PathHomSingleBasis] *)
Definition cell_basis {F : ordT} (l : list (F * cell)) : basis cell_ord :=
  Basis (length l) (fun i => do p <- index l i; Ok (snd p)).
(** coboundary.rs 396-420: [PathHomMultiBasis] is the same code as the Rips one (lib.rs 101-129 there) *)
Definition cell_split {F : ordT} (bases : list (list (F * cell))) : split_basis cell_ord :=
  multi_basis (map cell_basis bases).

(** coboundary.rs 422-441: [GrPPHCoboundary::build] *)
Definition grpph_coboundary_build {K : coeffT} {F : ordT} (z inf : F) (filtration : dfil F) (edge_set : list edge_ord) (n_vertices : nat)
    : res (fmatrix K cell_ord cell_ord F * split_basis cell_ord) :=
  do bridge_map <- build_primary_bridge_map filtration n_vertices;
  do bases <- build_basis z filtration edge_set n_vertices;
  Ok (fst (matrix_with_basis (grpph_coboundary z inf filtration edge_set n_vertices bridge_map) (sb_total (cell_split bases))),
      cell_split bases).

(** boundary.rs 22-37: [GrPPHBoundary::build] *)
Definition grpph_boundary_build {K : coeffT} {F : ordT} (z : F) (filtration : dfil F) (edge_set : list edge_ord)
    (basis : list (F * cell)) : fmatrix K cell_ord cell_ord F * Matrices.basis cell_ord :=
  matrix_with_basis (grpph_boundary z filtration edge_set) (cell_basis basis).

(* ------------------------------------------------------------------ *)
(** ** The Python functions (lib.rs) *)

(** [x as u16] *)
Definition as_u16 (x : nat) : nat := N.to_nat (N.of_nat x mod 65536).

(** lib.rs 23-55: [build_filtration].  [dijkstra i] is the map returned by petgraph's [dijkstra] from vertex [i]
    on the graph of the edges of finite weight (petgraph is not modelled). *)
Definition build_filtration {F : ordT} (n_vertices : nat) (dijkstra : nat -> nat -> option F) : list (list (option F)) :=
  map (fun i => map (fun j => if i =? j then None else dijkstra i j) (seq 0 n_vertices)) (seq 0 n_vertices).

(** lib.rs 57-62: [build_edge_set]; collecting into a set removes duplicates *)
Definition build_edge_set {F : ordT} (edges : list (nat * nat * F)) : list edge_ord :=
  fold_left (fun s (e : nat * nat * F) => @set_insert edge_ord (as_u16 (fst (fst e)), as_u16 (snd (fst e))) s) edges [].

Section Python.
  Variable HI : heaps.
  Context {F : ordT}.
  Variables (fuel : nat) (z inf : F).

  (** lib.rs 89-94 and 136-142: essential classes in the order in which the hash set yields them *)
  Definition translate_essential (fil : cell_ord -> res F) (ess : list (rev_ord cell_ord)) : res (list (list F)) :=
    foldM (fun (acc : list (list F)) (idx : rev_ord cell_ord) =>
      do f_val <- fil (unrev idx); push_at acc (cell_dimension (unrev idx)) f_val) ess [[]; []].

  (** lib.rs 96-106 and 146-159: pairs in the order in which the hash set yields them *)
  Definition translate_pairings (fil : cell_ord -> res F) (ps : list (rev_ord cell_ord * rev_ord cell_ord)) : res (list (list (F * F))) :=
    foldM (fun (acc : list (list (F * F))) (p : rev_ord cell_ord * rev_ord cell_ord) =>
      do birth_f <- fil (unrev (snd p));
      do death_f <- fil (unrev (fst p));
      if oeqb death_f birth_f then Ok acc
      else push_at acc (cell_dimension (unrev (snd p))) (birth_f, death_f)) ps [[]; []].

  (** lib.rs 75-85 and 121-132: build, reverse, reduce in dimensions [0..=1] over [CF] *)
  Definition grpph_reduce {K : coeffT} (filtration : dfil F) (edge_set : list edge_ord) (n_vertices : nat)
      : res (fmatrix K cell_ord cell_ord F * (rc_map (K:=K) (C:=rev_ord cell_ord) * diagram (rev_ord cell_ord))) :=
    do (d, sb) <- grpph_coboundary_build (K:=K) z inf filtration edge_set n_vertices;
    do (v, dg) <- build_with_diagram HI fuel (by_ref (reverse_f (by_ref d))) (reverse_split sb) [0; 1];
    Ok (d, (v, dg)).

  (** lib.rs 71-110: [grpph] *)
  Definition grpph (n_vertices : nat) (edges : list (nat * nat * F)) (dijkstra : nat -> nat -> option F)
      : res (list (list F) * list (list (F * F))) :=
    let filtration := vec_filtration (build_filtration n_vertices dijkstra) in
    let edge_set := build_edge_set edges in
    do (d, (_, dg)) <- grpph_reduce (K:=Z2_coeff) filtration edge_set (as_u16 n_vertices);
    do ess <- translate_essential (m_fil d) (essential dg);
    do prs <- translate_pairings (m_fil d) (pairings dg);
    Ok (ess, prs).

  (** lib.rs 145, 150-152 and 163: the (death time, death cell) of every pair whose birth is an edge, sorted *)
  Definition involution_basis (fil : cell_ord -> res F) (ps : list (rev_ord cell_ord * rev_ord cell_ord)) : res (list (F * cell)) :=
    do l <- flat_mapM (fun p : rev_ord cell_ord * rev_ord cell_ord =>
        do _ <- fil (unrev (snd p));
        do death_f <- fil (unrev (fst p));
        Ok (if cell_dimension (unrev (snd p)) =? 1 then [(death_f, unrev (fst p))] else [])) ps;
    Ok (@sort_unstable (pair_ord F cell_ord) l).

  (** lib.rs 185-195: the edges of one representative *)
  Definition rep_edges {K : coeffT} (es : list (entry F cell_ord K)) : res (list (nat * nat)) :=
    mapM (fun e => match (e_row e : cell) with Edge a b => Ok (a, b) | _ => Panic end) es.

  (** lib.rs 168-197: reduce the boundary matrix on the involution basis and read the representatives off *)
  Definition involution_reps {K : coeffT} (fil : cell_ord -> res F) (filtration : dfil F) (edge_set : list edge_ord)
      (ib : list (F * cell)) : res (list (list (nat * nat))) :=
    let '(d_boundary, b) := grpph_boundary_build (K:=K) z filtration edge_set ib in
    do (v_boundary, dg) <- standard_algo_with_diagram HI fuel (by_ref d_boundary) b false;
    let r_boundary := product_f (by_ref d_boundary) (mapvec_column v_boundary) in
    flat_mapM (fun pairing : cell_ord * cell_ord =>
        do birth_f <- fil (fst pairing);
        do death_f <- fil (snd pairing);
        if oeqb death_f birth_f then Ok []
        else
          do rep <- build_bhcol HI r_boundary (snd pairing);
          do (es, _) <- drain_sorted rep;
          do new_rep <- rep_edges es;
          Ok [new_rep]) (pairings dg).

  (** lib.rs 117-201: [grpph_with_involution] *)
  Definition grpph_with_involution (n_vertices : nat) (edges : list (nat * nat * F)) (dijkstra : nat -> nat -> option F)
      : res (list (list F) * list (list (F * F)) * list (list (nat * nat))) :=
    let filtration := vec_filtration (build_filtration n_vertices dijkstra) in
    let edge_set := build_edge_set edges in
    do (d, (_, dg)) <- grpph_reduce (K:=Z2_coeff) filtration edge_set (as_u16 n_vertices);
    do ess <- translate_essential (m_fil d) (essential dg);
    do ib <- involution_basis (m_fil d) (pairings dg);
    do prs <- translate_pairings (m_fil d) (pairings dg);
    do reps <- involution_reps (K:=Z2_coeff) (m_fil d) filtration edge_set ib;
    Ok (ess, prs, reps).

  (** lib.rs 35: the edges that are given to petgraph *)
  Definition finite_edges (edges : list (nat * nat * F)) : list (nat * nat * F) := filter (fun e => oltb (snd e) inf) edges.
  (** lib.rs 71-110 and 117-201 with the graph on which [dijkstra] is called: [sp edges] stands for petgraph's
      [dijkstra] on the graph of the edges [edges] (lib.rs 25-35 and 40). *)
  Definition grpph_py (sp : list (nat * nat * F) -> nat -> nat -> option F) (n_vertices : nat) (edges : list (nat * nat * F)) :=
    grpph n_vertices edges (sp (finite_edges edges)).
  Definition grpph_with_involution_py (sp : list (nat * nat * F) -> nat -> nat -> option F) (n_vertices : nat) (edges : list (nat * nat * F)) :=
    grpph_with_involution n_vertices edges (sp (finite_edges edges)).

  (** bin/main.rs 12-84: the demonstration program, for any number [n] of vertices (the code fixes [n = 100], 13); [one] is
      1.0 and [sp] is petgraph's [dijkstra].  Returns what is printed: the births of the essential classes and the (birth, death) of the
      pairs with different times; the subtractions in the last-but-one assertion (81) panic when they underflow, as do
      failed assertions. *)
  Definition grpph_demo (one : F) (sp : list (nat * nat * F) -> nat -> nat -> option F) (n : nat) : res (list F * list (F * F)) :=
    let pairs := flat_map (fun i => map (fun j => (i, j)) (seq 0 n)) (seq 0 n) in
    let g := map (fun p : nat * nat => (fst p, snd p, one)) (filter (fun p => negb (fst p =? snd p)) pairs) in
    let filtration := vec_filtration (build_filtration n (sp g)) in
    let edge_set := fold_left (fun s (p : nat * nat) => @set_insert edge_ord p s)
        (filter (fun p => negb (fst p =? snd p)) (map (fun p : nat * nat => (as_u16 (fst p), as_u16 (snd p))) pairs)) [] in
    do (d, (_, dg)) <- grpph_reduce (K:=Z2_coeff) filtration edge_set (as_u16 n);
    do ess <- mapM (fun idx : rev_ord cell_ord => m_fil d (unrev idx)) (essential dg);
    do prs <- flat_mapM (fun p : rev_ord cell_ord * rev_ord cell_ord =>
        do birth_f <- m_fil d (unrev (snd p));
        do death_f <- m_fil d (unrev (fst p));
        Ok (if oeqb death_f birth_f then [] else [(birth_f, death_f)])) (pairings dg);
    if (n <? 1) || (n * (n - 1) <? n) then Panic else
    if negb (length prs =? n * (n - 1) - n + 1) then Panic else
    if negb (length (essential dg) =? 1) then Panic else
    Ok (ess, prs).
End Python.
