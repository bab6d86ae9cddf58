(** Iterating lazily over a [WithCachedCols] and running the reductions on one: the columns of the wrapped matrix are asked
    for in the middle of other iterations, and each open iterator keeps the cache borrowed. *)
From Verif Require Import Base Fields Columns Matrices Reduction.
Set Implicit Arguments.

Section CachedRun.
  Variable HI : heaps.
  Context {K : coeffT} {C F : ordT}.
  Notation cst := (cache_state K C C).
  Variable m : oracle K C C.

  (** Column iterators built over the cached matrix, before they are consumed:
      - [LVec l]: an iterator over a slice or [Vec] (implementors.rs 68-90, 169-196; clearing.rs 128-133), holding no borrow;
      - [LCol c]: [column(c)] of the cached matrix (adaptors.rs 234-255);
      - [LFlat it]: [matrix_col_product!(cached, it)] (combinators.rs 37-46), i.e. [it.flat_map(..)]. *)
  Inductive lit : Type :=
  | LVec (l : list (K * C))
  | LCol (c : C)
  | LFlat (it : lit).

  Section Drive.
    Context {A : Type}.

    (** columns.rs 139-147 (the [for] loop) over iterator number [h] of the cache, with a loop body that may itself use the cache;
        when the iterator has reported its end it is dropped *)
    Fixpoint drain_iter (fuel : nat) (h : nat) (f : A -> K * C -> cst -> res (A * cst)) (a : A) (s : cst) : res (A * cst) :=
      match fuel with
      | O => NoFuel
      | S fuel =>
          let '(o, s) := cache_next s h in
          match o with
          | None => Ok (a, cache_drop s h)
          | Some x => do (a, s) <- f a x s; drain_iter fuel h f a s
          end
      end.

    (** items left in iterator number [h] *)
    Definition iter_rest (s : cst) (h : nat) : list (K * C) :=
      match nth_error (cs_iters s) h with Some (Some l) => l | _ => [] end.

    (** adaptors.rs 234-255 and the loop above: request column [c] and consume it *)
    Definition drive_col (c : C) (f : A -> K * C -> cst -> res (A * cst)) (a : A) (s : cst) : res (A * cst) :=
      do (h, s) <- cache_column m s c;
      drain_iter (S (length (iter_rest s h))) h f a s.

    Fixpoint drive_vec (l : list (K * C)) (f : A -> K * C -> cst -> res (A * cst)) (a : A) (s : cst) : res (A * cst) :=
      match l with
      | [] => Ok (a, s)
      | x :: l => do (a, s) <- f a x s; drive_vec l f a s
      end.

    (** Consuming an iterator to its end.  [flat_map] (combinators.rs 37-46) takes one item of the outer iterator, which stays alive,
        requests the corresponding column, yields all its items and only then takes the next outer item. *)
    Fixpoint drive (it : lit) (f : A -> K * C -> cst -> res (A * cst)) (a : A) (s : cst) : res (A * cst) :=
      match it with
      | LVec l => drive_vec l f a s
      | LCol c => drive_col c f a s
      | LFlat it =>
          drive it (fun a p s =>
            drive_col (snd p) (fun a q s => f a (k_mul (fst q) (fst p), snd q) s) a s) a s
      end.
  End Drive.

  (** the list of the items: [Iterator::collect] *)
  Definition collect (it : lit) (s : cst) : res (list (K * C) * cst) :=
    drive it (fun acc x s => Ok (acc ++ [x], s)) [] s.

  Variable fil : C -> res F.

  (** matrices/mod.rs 309-319: [column_with_filtration] of the cached matrix (adaptors.rs 257-267 does not override it), or of a product of it;
      the filtration values do not involve the cache, so they are attached after the items have been collected *)
  Definition collect_f (it : lit) (s : cst) : res (list (entry F C K) * cst) :=
    do (l, s) <- collect it s;
    do es <- mapM (fun p => do f <- fil (snd p); Ok (entry_of_tuple (fst p, snd p, f))) l;
    Ok (es, s).

  (** matrices/mod.rs 331-338 *)
  Definition c_build_bhcol (it : lit) (s : cst) : res (bhcol HI F C K * cst) :=
    do (es, s) <- collect_f it s; Ok (add_entries (empty_bhcol HI F C K) es, s).

  (** ** [standard_algo_with_diagram] on the cached matrix (standard.rs 31-171) *)
  (** standard.rs 51-89, as [standard_loop] *)
  Fixpoint c_standard_loop (fuel : nat) (v : @v_map K C) (low : @low_map K C)
      (r_i : bhcol HI F C K) (v_i : bhcol HI unit_ord C K) (s : cst)
      : res (bhcol HI F C K * bhcol HI unit_ord C K * cst) :=
    match fuel with
    | O => NoFuel
    | S fuel =>
        do (o, r_i) <- pop_pivot r_i;
        match o with
        | None => Ok (r_i, v_i, s)
        | Some pivot =>
            let r_i := add_entry r_i pivot in
            match map_get (e_row pivot) low with
            | None => Ok (r_i, v_i, s)
            | Some (j, j_coeff) =>
                let col_multiple := k_mul (k_neg (e_coeff pivot)) (k_inv j_coeff) in
                do v_j <- mapvec_column v j;
                do (es, s) <- collect_f (LFlat (LVec v_j)) s;
                do vs <- m_colf (with_trivial_filtration (mapvec_column v)) j;
                c_standard_loop fuel v low
                  (add_entries r_i (map (fun e => entry_scale e col_multiple) es))
                  (add_entries v_i (map (fun e => entry_scale e col_multiple) vs)) s
            end
        end
    end.
  (** standard.rs 42-106, as [standard_step] *)
  Definition c_standard_step (fuel : nat) (b : basis C) (st : @v_map K C * @low_map K C * cst) (i : nat)
      : res (@v_map K C * @low_map K C * cst) :=
    let '(v, low, s) := st in
    do c <- b_elem b i;
    let v_i := add_tuple (empty_bhcol HI unit_ord C K) (k_one, c, tt) in
    do (r_i, s) <- c_build_bhcol (LCol c) s;
    do (r_i, v_i, s) <- c_standard_loop fuel v low r_i v_i s;
    do (o, _) <- pop_pivot r_i;
    let low := match o with
               | Some pivot => map_insert (e_row pivot) (c, e_coeff pivot) low
               | None => low
               end in
    do (es, _) <- drain_sorted v_i;
    Ok (map_insert c (map e_term es) v, low, s).
  (** standard.rs 31-109 *)
  Definition c_standard_algo (fuel : nat) (b : basis C) (s : cst) : res (@v_map K C * cst) :=
    do (v, _, s) <- foldM (c_standard_step fuel b) (seq 0 (b_size b)) ([], [], s);
    Ok (v, s).
  (** standard.rs 133-146, as [read_off_step] *)
  Definition c_read_off_step (b : basis C) (v : @v_map K C) (st : diagram C * cst) (i : nat) : res (diagram C * cst) :=
    let '(dg, s) := st in
    do c <- b_elem b i;
    do v_c <- mapvec_column v c;
    do (r_i, s) <- c_build_bhcol (LFlat (LVec v_c)) s;
    do (o, r_i) <- pop_pivot r_i;
    do (_, _) <- pop_pivot r_i;
    Ok (match o with
        | None => Diagram (set_insert c (essential dg)) (pairings dg)
        | Some piv => Diagram (set_remove (e_row piv) (essential dg))
                              (@set_insert (pair_ord C C) (e_row piv, c) (pairings dg))
        end, s).
  (** standard.rs 112-152 *)
  Definition c_read_off_diagram (b : basis C) (v : @v_map K C) (reverse_order : bool) (s : cst) : res (diagram C * cst) :=
    let idx := seq 0 (b_size b) in
    foldM (c_read_off_step b v) (if reverse_order then rev idx else idx) (Diagram [] [], s).
  (** standard.rs 156-171 *)
  Definition c_standard_algo_with_diagram (fuel : nat) (b : basis C) (reverse_order : bool) (s : cst)
      : res (@v_map K C * diagram C * cst) :=
    do (v, s) <- c_standard_algo fuel b s;
    do (dg, s) <- c_read_off_diagram b v reverse_order s;
    Ok (v, dg, s).

  (** ** [build_with_diagram] on the cached matrix (clearing.rs 173-356) *)
  (** clearing.rs 110-137, as [crm_column]: the iterator for column [c] of the reduction matrix.  The column of a cleared cell is a product over the boundary *)
  Fixpoint crm_lit_fuel (fuel : nat) (rc : @rc_map K C) (c : C) : res lit :=
    match fuel with
    | O => NoFuel
    | S fuel =>
        do e <- unwrap (map_get c rc);
        match e with
        | Cleared j => do it <- crm_lit_fuel fuel rc j; Ok (LFlat it)
        | Reduced l => Ok (LVec (l ++ [(k_one, c)]))
        end
    end.
  Definition crm_lit (rc : @rc_map K C) (c : C) : res lit := crm_lit_fuel (S (length rc)) rc c.

  (** clearing.rs 191-233, as [reduce_column] *)
  Fixpoint c_reduce_column (fuel : nat) (rc : @rc_map K C) (low : @low_map K C)
      (r_i : bhcol HI F C K) (v_i : bhcol HI unit_ord C K) (s : cst)
      : res (bhcol HI F C K * bhcol HI unit_ord C K * cst) :=
    match fuel with
    | O => NoFuel
    | S fuel =>
        do (o, r_i) <- clone_pivot r_i;
        match o with
        | None => Ok (r_i, v_i, s)
        | Some pivot =>
            match map_get (e_row pivot) low with
            | None => Ok (r_i, v_i, s)
            | Some (j, j_coeff) =>
                let col_multiple := k_mul (k_neg (e_coeff pivot)) (k_inv j_coeff) in
                do v_j <- crm_lit rc j;
                do (es, s) <- collect_f (LFlat v_j) s;
                do (vl, s) <- collect v_j s;
                let vs := map (fun p => entry_of_tuple (fst p, snd p, tt)) vl in
                c_reduce_column fuel rc low
                  (add_entries r_i (map (fun e => entry_scale e col_multiple) es))
                  (add_entries v_i (map (fun e => entry_scale e col_multiple) vs)) s
            end
        end
    end.
  (** clearing.rs 289-312, as [clear_step]; [save_column] (235-279) does not use the boundary *)
  Definition c_clear_step (fuel : nat) (sub : basis C) (st : @builder K C * @low_map K C * cst) (i : nat)
      : res (@builder K C * @low_map K C * cst) :=
    let '(bd, low, s) := st in
    do c <- b_elem sub i;
    if map_mem c (bd_rc bd) then Ok (bd, low, s)
    else
      let v_i := empty_bhcol HI unit_ord C K in
      do (r_i, s) <- c_build_bhcol (LCol c) s;
      do (r_i, v_i, s) <- c_reduce_column fuel (bd_rc bd) low r_i v_i s;
      do (bd, low) <- save_column HI bd c low r_i v_i;
      Ok (bd, low, s).
  (** clearing.rs 281-313 *)
  Definition c_reduce_dimension (fuel : nat) (sb : split_basis C) (st : @builder K C * cst) (dim : nat)
      : res (@builder K C * cst) :=
    let '(bd, s) := st in
    do sub <- sb_dim sb dim;
    do (bd, _, s) <- foldM (c_clear_step fuel sub) (seq 0 (b_size sub)) (bd, [], s);
    Ok (bd, s).
  (** clearing.rs 315-356 *)
  Definition c_build_with_diagram (fuel : nat) (sb : split_basis C) (dims : list nat) (s : cst)
      : res (@rc_map K C * diagram C * cst) :=
    do (bd, s) <- foldM (c_reduce_dimension fuel sb) dims (Builder (Diagram [] []) [], s);
    Ok (bd_rc bd, bd_dgm bd, s).
End CachedRun.
Arguments LVec {K C} l.
Arguments LCol {K C} c.
Arguments LFlat {K C} it.
