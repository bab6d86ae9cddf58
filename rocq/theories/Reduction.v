(** Model of phlite/src/reduction/{mod,standard,clearing}.rs. *)
From Verif Require Import Base Fields Columns Matrices.
Set Implicit Arguments.

(** reduction/mod.rs 17-22: [Diagram]; hash sets are duplicate-free lists *)
Record diagram (C : ordT) : Type := Diagram { essential : list C; pairings : list (C * C) }.
Arguments Diagram {C} _ _.
Arguments essential {C} _.
Arguments pairings {C} _.

Section Standard.
  Variable HI : heaps.
  Context {K : coeffT} {C F : ordT}.

  (** standard.rs 37 and 40: the types of [v] and [low_inverse] *)
  Definition v_map : Type := kmap C (list (K * C)).
  Definition low_map : Type := kmap C (C * K).

  (** standard.rs 51-89: the ['reduction] loop for one column; [v] and [low] are
      the V columns and [low_inverse] of the columns reduced so far.  The
      boundary is used through [&boundary] inside [product]. *)
  Fixpoint standard_loop (fuel : nat) (D : fmatrix K C C F) (v : v_map) (low : low_map)
      (r_i : bhcol HI F C K) (v_i : bhcol HI unit_ord C K)
      : res (bhcol HI F C K * bhcol HI unit_ord C K) :=
    match fuel with
    | O => NoFuel
    | S fuel =>
        do (o, r_i) <- pop_pivot r_i;
        match o with
        | None => Ok (r_i, v_i)                                   (* 52-55 *)
        | Some pivot =>
            let r_i := add_entry r_i pivot in                      (* 61 *)
            match map_get (e_row pivot) low with
            | None => Ok (r_i, v_i)                               (* 64-67 *)
            | Some (j, j_coeff) =>
                let col_multiple := k_mul (k_neg (e_coeff pivot)) (k_inv j_coeff) in   (* 70 *)
                let v_matrix := with_trivial_filtration (mapvec_column v) in           (* 72-73 *)
                let r_matrix := product_f (by_ref D) (m_col (by_ref v_matrix)) in      (* 74 *)
                do es <- m_colf r_matrix j;                                            (* 77-81 *)
                do vs <- m_colf v_matrix j;                                            (* 84-88 *)
                standard_loop fuel D v low
                  (add_entries r_i (map (fun e => entry_scale e col_multiple) es))
                  (add_entries v_i (map (fun e => entry_scale e col_multiple) vs))
            end
        end
    end.

  (** standard.rs 42-106: the body of the [for] loop *)
  Definition standard_step (fuel : nat) (D : fmatrix K C C F) (b : basis C) (st : v_map * low_map) (i : nat)
      : res (v_map * low_map) :=
    let '(v, low) := st in
    do c <- b_elem b i;                                                               (* 45 *)
    let v_i := add_tuple (empty_bhcol HI unit_ord C K) (k_one, c, tt) in              (* 47-48 *)
    do r_i <- build_bhcol HI D c;                                                     (* 49 *)
    do (r_i, v_i) <- standard_loop fuel D v low r_i v_i;
    do (o, _) <- pop_pivot r_i;                                                       (* 92 *)
    let low := match o with
               | Some pivot => map_insert (e_row pivot) (c, e_coeff pivot) low
               | None => low
               end in
    do (es, _) <- drain_sorted v_i;                                                   (* 100-105 *)
    Ok (map_insert c (map e_term es) v, low).

  (** standard.rs 31-109: [standard_algo] *)
  Definition standard_algo (fuel : nat) (D : fmatrix K C C F) (b : basis C) : res v_map :=
    do (v, _) <- foldM (standard_step fuel D b) (seq 0 (b_size b)) ([], []);
    Ok v.

  (** standard.rs 133-146: body of the loop of [read_off_diagram] *)
  Definition read_off_step (r : fmatrix K C C F) (b : basis C) (dg : diagram C) (i : nat) : res (diagram C) :=
    do c <- b_elem b i;
    do r_i <- build_bhcol HI r c;
    do (o, r_i) <- pop_pivot r_i;
    do (_, _) <- pop_pivot r_i;                                                       (* 145 *)
    Ok (match o with
        | None => Diagram (set_insert c (essential dg)) (pairings dg)
        | Some piv => Diagram (set_remove (e_row piv) (essential dg))
                              (@set_insert (pair_ord C C) (e_row piv, c) (pairings dg))
        end).

  (** standard.rs 112-152: [read_off_diagram] *)
  Definition read_off_diagram (D : fmatrix K C C F) (b : basis C) (v : v_map) (reverse_order : bool)
      : res (diagram C) :=
    let r := product_f (by_ref D) (mapvec_column v) in
    let idx := seq 0 (b_size b) in
    foldM (read_off_step r b) (if reverse_order then rev idx else idx) (Diagram [] []).

  (** standard.rs 156-171: [standard_algo_with_diagram]; both callees receive [&boundary] *)
  Definition standard_algo_with_diagram (fuel : nat) (D : fmatrix K C C F) (b : basis C) (reverse_order : bool)
      : res (v_map * diagram C) :=
    do v <- standard_algo fuel (by_ref D) b;
    do dg <- read_off_diagram (by_ref D) b v reverse_order;
    Ok (v, dg).
End Standard.

(* ------------------------------------------------------------------ *)
(** ** Clearing *)

(** clearing.rs 25-31: [ReductionColumn] *)
Inductive redcol (K C : Type) : Type :=
| Cleared (death : C)
| Reduced (v : list (K * C)).
Arguments Cleared {K C} death.
Arguments Reduced {K C} v.

Section Clearing.
  Variable HI : heaps.
  Context {K : coeffT} {C F : ordT}.

  (** clearing.rs 33-34: [ReductionCols]; [build_from_ref] (57-65) and [build_from_owned] (90-98) only wrap it *)
  Definition rc_map : Type := kmap C (redcol K C).

  (** clearing.rs 110-137: [column] of the reduction matrix; the recursion of line 123 on
      cleared columns is followed [fuel] times *)
  Fixpoint crm_column_fuel (fuel : nat) (D : oracle K C C) (rc : rc_map) (c : C) : res (list (K * C)) :=
    match fuel with
    | O => NoFuel
    | S fuel =>
        do e <- unwrap (map_get c rc);
        match e with
        | Cleared j => do vj <- crm_column_fuel fuel D rc j; matrix_col_product D vj
        | Reduced l => Ok (l ++ [(k_one, c)])
        end
    end.
  (** A chain of [Cleared] references longer than the table revisits a
      column: the Rust recursion then never ends, which is [NoFuel]. *)
  Definition crm_column (D : oracle K C C) (rc : rc_map) : oracle K C C :=
    fun c => crm_column_fuel (S (length rc)) D rc c.

  (** clearing.rs 71-81: [col_is_cycle] *)
  Definition col_is_cycle (D : fmatrix K C C F) (rc : rc_map) (c : C) : res bool :=
    do e <- unwrap (map_get c rc);
    match e with
    | Cleared _ => Ok true
    | Reduced _ =>
        do r_col <- build_bhcol HI (product_f (by_ref D) (crm_column (m_col D) rc)) c;
        do (o, _) <- pop_pivot r_col;
        Ok (match o with None => true | Some _ => false end)
    end.

  (** clearing.rs 157-162: [CRMBuilder] (the mutable part) *)
  Record builder : Type := Builder { bd_dgm : diagram C; bd_rc : rc_map }.

  (** clearing.rs 191-233: [reduce_column] *)
  Fixpoint reduce_column (fuel : nat) (D : fmatrix K C C F) (rc : rc_map) (low : @low_map K C)
      (r_i : bhcol HI F C K) (v_i : bhcol HI unit_ord C K)
      : res (bhcol HI F C K * bhcol HI unit_ord C K) :=
    match fuel with
    | O => NoFuel
    | S fuel =>
        do (o, r_i) <- clone_pivot r_i;
        match o with
        | None => Ok (r_i, v_i)
        | Some pivot =>
            match map_get (e_row pivot) low with
            | None => Ok (r_i, v_i)
            | Some (j, j_coeff) =>
                let col_multiple := k_mul (k_neg (e_coeff pivot)) (k_inv j_coeff) in
                let v_matrix := with_trivial_filtration (crm_column (m_col (by_ref D)) rc) in
                let r_matrix := product_f (by_ref D) (m_col (by_ref v_matrix)) in
                do es <- m_colf r_matrix j;
                do vs <- m_colf v_matrix j;
                reduce_column fuel D rc low
                  (add_entries r_i (map (fun e => entry_scale e col_multiple) es))
                  (add_entries v_i (map (fun e => entry_scale e col_multiple) vs))
            end
        end
    end.

  (** clearing.rs 235-279: [save_column] *)
  Definition save_column (bd : builder) (c : C) (low : @low_map K C)
      (r_i : bhcol HI F C K) (v_i : bhcol HI unit_ord C K) : res (builder * @low_map K C) :=
    let '(dgm, rc, low) :=
      match peek_pivot r_i with
      | Some pivot =>
          (Diagram (essential (bd_dgm bd))
             (@set_insert (pair_ord C C) (e_row pivot, c) (pairings (bd_dgm bd))),
           map_insert (e_row pivot) (Cleared c) (bd_rc bd),
           map_insert (e_row pivot) (c, e_coeff pivot) low)
      | None => (Diagram (set_insert c (essential (bd_dgm bd))) (pairings (bd_dgm bd)), bd_rc bd, low)
      end in
    do (es, _) <- drain_sorted v_i;
    Ok (Builder dgm (map_insert c (Reduced (map e_term es)) rc), low).

  (** clearing.rs 289-312: the body of ['column_loop] *)
  Definition clear_step (fuel : nat) (D : fmatrix K C C F) (sub : basis C) (st : builder * @low_map K C) (i : nat)
      : res (builder * @low_map K C) :=
    let '(bd, low) := st in
    do c <- b_elem sub i;
    if map_mem c (bd_rc bd) then Ok (bd, low)
    else
      let v_i := empty_bhcol HI unit_ord C K in
      do r_i <- build_bhcol HI D c;
      do (r_i, v_i) <- reduce_column fuel D (bd_rc bd) low r_i v_i;
      save_column bd c low r_i v_i.

  (** clearing.rs 281-313: [reduce_dimension] *)
  Definition reduce_dimension (fuel : nat) (D : fmatrix K C C F) (sb : split_basis C) (bd : builder) (dim : nat)
      : res builder :=
    do sub <- sb_dim sb dim;
    do (bd, _) <- foldM (clear_step fuel D sub) (seq 0 (b_size sub)) (bd, []);
    Ok bd.

  (** clearing.rs 173-189 ([init]), 315-320 ([reduce_all_dimension]), 343-356 ([build_with_diagram]) *)
  Definition build_with_diagram (fuel : nat) (D : fmatrix K C C F) (sb : split_basis C) (dims : list nat)
      : res (rc_map * diagram C) :=
    do bd <- foldM (reduce_dimension fuel D sb) dims (Builder (Diagram [] []) []);
    Ok (bd_rc bd, bd_dgm bd).
End Clearing.
