(** The columns, products and reductions of phlite run with the arithmetic of the machine.

    [Columns.v], [Matrices.v] and [Reduction.v] model the code over an ideal field ([coeffT]): its coefficient
    operations return.  Here the same code is modelled over coefficient operations that may panic ([ZP] on [u8], [Q] on
    [isize] and [usize]). *)
From Verif Require Import Base Fields Columns Matrices Reduction.
Set Implicit Arguments.

(** fields.rs 12-36: an implementor of [NonZeroCoefficient] and [Invertible], every operation of which may panic *)
Record mach : Type := Mach {
  mcar :> Type;
  x_add : mcar -> mcar -> res (option mcar);
  x_mul : mcar -> mcar -> res mcar;
  x_one : mcar;
  x_neg : mcar -> res mcar;
  x_inv : mcar -> res mcar
}.
Arguments x_add {m} _ _.
Arguments x_mul {m} _ _.
Arguments x_one {m}.
Arguments x_neg {m} _.
Arguments x_inv {m} _.

(** fields.rs 113-251: [ZP<P>] on [NonZeroU8] *)
Definition zp_mach (P : Z) : mach := @Mach Z (zp_add P) (zp_mul P) zp_one (zp_neg P) (zp_inv P).
(** fields.rs 253-304: [Q] on [(isize, usize)] *)
Definition q_mach (pf : profile) : mach := @Mach mq (q_add pf) (q_mul pf) q_one (q_neg pf) (q_inv pf).
(** An ideal field. *)
Definition pure_mach (K : coeffT) : mach :=
  @Mach K (fun a b => Ok (k_add a b)) (fun a b => Ok (k_mul a b)) k_one (fun a => Ok (k_neg a)) (fun a => Ok (k_inv a)).

(** fields.rs 69-82, 127-136: adding an [Option] *)
Definition x_add_opt {A : mach} (a : A) (b : option A) : res (option A) :=
  match b with None => Ok (Some a) | Some b => x_add a b end.

(** columns.rs 85-97: scaling an entry *)
Definition x_scale {F R : Type} {A : mach} (e : entry F R A) (m : A) : res (entry F R A) :=
  do c <- x_mul (e_coeff e) m; Ok (Entry (e_fil e) (e_row e) c).

Section Pivot.
  Context {HI : heaps} {F R : ordT} {A : mach}.
  Implicit Types (h : bhcol HI F R A).
  (** columns.rs 191-218 *)
  Fixpoint x_pop_loop (fuel : nat) h (wi : R) (ws : option A) (wf : F) : res (option (entry F R A) * bhcol HI F R A) :=
    match fuel with
    | O => NoFuel
    | S fuel =>
        let report := option_map (fun c => Entry wf wi c) ws in
        match hp_peek (HI F R A) h with
        | None => Ok (report, h)
        | Some next =>
            let differs := negb (oeqb (e_row next) wi) in
            match differs, ws with
            | true, Some _ => Ok (report, h)
            | _, _ =>
                let '(wi, ws, wf) := if differs then (e_row next, None, e_fil next) else (wi, ws, wf) in
                do (ne, h') <- unwrap (hp_pop (HI F R A) h);
                do ws' <- x_add_opt (e_coeff ne) ws;
                x_pop_loop fuel h' wi ws' wf
            end
        end
    end.
  (** columns.rs 181-219 *)
  Definition x_pop_pivot h : res (option (entry F R A) * bhcol HI F R A) :=
    match hp_pop (HI F R A) h with
    | None => Ok (None, h)
    | Some (first, h1) => x_pop_loop (S (length (elems h1))) h1 (e_row first) (Some (e_coeff first)) (e_fil first)
    end.
  (** columns.rs 164-169 *)
  Fixpoint x_drain_loop (fuel : nat) h : res (list (entry F R A) * bhcol HI F R A) :=
    match fuel with
    | O => NoFuel
    | S fuel =>
        do (o, h') <- x_pop_pivot h;
        match o with
        | None => Ok ([], h')
        | Some e => do (es, h'') <- x_drain_loop fuel h'; Ok (e :: es, h'')
        end
    end.
  Definition x_drain_sorted h : res (list (entry F R A) * bhcol HI F R A) := x_drain_loop (S (length (elems h))) h.
  (** columns.rs 222-235 *)
  Definition x_clone_pivot h : res (option (entry F R A) * bhcol HI F R A) :=
    do (o, h') <- x_pop_pivot h;
    match o with
    | Some pivot => Ok (Some pivot, add_entry h' pivot)
    | None => Ok (None, h')
    end.
End Pivot.

(** matrices/mod.rs 78-101 and 300-339: a matrix with machine coefficients and a row filtration; see [fmatrix] *)
Definition xoracle (A : mach) (C R : ordT) : Type := C -> res (list (A * R)).
Record xmatrix (A : mach) (C R F : ordT) : Type := XMatrix {
  x_col : xoracle A C R;
  x_fil : R -> res F;
  x_colf : C -> res (list (entry F R A))
}.
Arguments XMatrix {A C R F} _ _ _.
Arguments x_col {A C R F} _ _.
Arguments x_fil {A C R F} _ _.
Arguments x_colf {A C R F} _ _.
(** matrices/mod.rs 309-319 *)
Definition x_default_colf {A : mach} {C R F : ordT} (col : xoracle A C R) (fil : R -> res F) (c : C) : res (list (entry F R A)) :=
  do l <- col c; mapM (fun p => do f <- fil (snd p); Ok (entry_of_tuple (fst p, snd p, f))) l.
Definition xm_default {A : mach} {C R F : ordT} (col : xoracle A C R) (fil : R -> res F) : xmatrix A C R F :=
  XMatrix col fil (x_default_colf col fil).
(** matrices/mod.rs 232-294, 341-350 *)
Definition x_ref {A : mach} {C R F : ordT} (m : xmatrix A C R F) : xmatrix A C R F := xm_default (x_col m) (x_fil m).
(** matrices/mod.rs 331-338 *)
Definition x_build (HI : heaps) {A : mach} {C R F : ordT} (m : xmatrix A C R F) (c : C) : res (bhcol HI F R A) :=
  do es <- x_colf m c; Ok (add_entries (empty_bhcol HI F R A) es).
(** adaptors.rs 28-64 *)
Definition x_trivial {A : mach} {C R : ordT} (m : xoracle A C R) : xmatrix A C R unit_ord := xm_default (F:=unit_ord) m (fun _ => Ok tt).
(** combinators.rs 37-46: the products of coefficients may panic when the iterator is consumed *)
Definition x_col_product {A : mach} {C R : ordT} (m : xoracle A C R) (col : list (A * C)) : res (list (A * R)) :=
  flat_mapM (fun p => do lc <- m (snd p); mapM (fun q => do k <- x_mul (fst q) (fst p); Ok (k, snd q)) lc) col.
(** combinators.rs 48-69 *)
Definition x_product {A : mach} {C J R : ordT} (left : xoracle A J R) (right : xoracle A C J) : xoracle A C R :=
  fun c => do rc <- right c; x_col_product left rc.
(** combinators.rs 71-97 *)
Definition x_product_f {A : mach} {C J R F : ordT} (left : xmatrix A J R F) (right : xoracle A C J) : xmatrix A C R F :=
  XMatrix (x_product (x_col left) right) (x_fil left)
    (fun c => do rc <- right c;
       flat_mapM (fun p => do lc <- x_colf left (snd p);
                           mapM (fun e => do k <- x_mul (e_coeff e) (fst p); Ok (Entry (e_fil e) (e_row e) k)) lc) rc).
(** implementors.rs 169-196 *)
Definition x_mapvec {A : mach} {C R : ordT} (cols : kmap C (list (A * R))) : xoracle A C R := fun c => unwrap (map_get c cols).

Section Standard.
  Variable HI : heaps.
  Context {A : mach} {C F : ordT}.
  (** standard.rs 37 and 40 *)
  Definition x_vmap : Type := kmap C (list (A * C)).
  Definition x_low : Type := kmap C (C * A).
  (** standard.rs 51-89 *)
  Fixpoint x_standard_loop (fuel : nat) (D : xmatrix A C C F) (v : x_vmap) (low : x_low)
      (r_i : bhcol HI F C A) (v_i : bhcol HI unit_ord C A) : res (bhcol HI F C A * bhcol HI unit_ord C A) :=
    match fuel with
    | O => NoFuel
    | S fuel =>
        do (o, r_i) <- x_pop_pivot r_i;
        match o with
        | None => Ok (r_i, v_i)
        | Some pivot =>
            let r_i := add_entry r_i pivot in
            match map_get (e_row pivot) low with
            | None => Ok (r_i, v_i)
            | Some (j, j_coeff) =>
                do np <- x_neg (e_coeff pivot); do ij <- x_inv j_coeff; do col_multiple <- x_mul np ij;
                let v_matrix := x_trivial (x_mapvec v) in
                let r_matrix := x_product_f (x_ref D) (x_col (x_ref v_matrix)) in
                do es <- x_colf r_matrix j; do es <- mapM (fun e => x_scale e col_multiple) es;
                do vs <- x_colf v_matrix j; do vs <- mapM (fun e => x_scale e col_multiple) vs;
                x_standard_loop fuel D v low (add_entries r_i es) (add_entries v_i vs)
            end
        end
    end.
  (** standard.rs 42-106 *)
  Definition x_standard_step (fuel : nat) (D : xmatrix A C C F) (b : basis C) (st : x_vmap * x_low) (i : nat) : res (x_vmap * x_low) :=
    let '(v, low) := st in
    do c <- b_elem b i;
    let v_i := add_tuple (empty_bhcol HI unit_ord C A) (x_one, c, tt) in
    do r_i <- x_build HI D c;
    do (r_i, v_i) <- x_standard_loop fuel D v low r_i v_i;
    do (o, _) <- x_pop_pivot r_i;
    let low := match o with Some pivot => map_insert (e_row pivot) (c, e_coeff pivot) low | None => low end in
    do (es, _) <- x_drain_sorted v_i;
    Ok (map_insert c (map e_term es) v, low).
  (** standard.rs 31-109 *)
  Definition x_standard_algo (fuel : nat) (D : xmatrix A C C F) (b : basis C) : res x_vmap :=
    do (v, _) <- foldM (x_standard_step fuel D b) (seq 0 (b_size b)) ([], []); Ok v.
  (** standard.rs 133-146 *)
  Definition x_read_off_step (r : xmatrix A C C F) (b : basis C) (dg : diagram C) (i : nat) : res (diagram C) :=
    do c <- b_elem b i;
    do r_i <- x_build HI r c;
    do (o, r_i) <- x_pop_pivot r_i;
    do (_, _) <- x_pop_pivot r_i;
    Ok (match o with
        | None => Diagram (set_insert c (essential dg)) (pairings dg)
        | Some piv => Diagram (set_remove (e_row piv) (essential dg)) (@set_insert (pair_ord C C) (e_row piv, c) (pairings dg))
        end).
  (** standard.rs 112-152 *)
  Definition x_read_off_diagram (D : xmatrix A C C F) (b : basis C) (v : x_vmap) (reverse_order : bool) : res (diagram C) :=
    let r := x_product_f (x_ref D) (x_mapvec v) in
    let idx := seq 0 (b_size b) in
    foldM (x_read_off_step r b) (if reverse_order then rev idx else idx) (Diagram [] []).
  (** standard.rs 156-171 *)
  Definition x_standard_algo_with_diagram (fuel : nat) (D : xmatrix A C C F) (b : basis C) (reverse_order : bool)
      : res (x_vmap * diagram C) :=
    do v <- x_standard_algo fuel (x_ref D) b;
    do dg <- x_read_off_diagram (x_ref D) b v reverse_order;
    Ok (v, dg).
End Standard.

Section Clearing.
  Variable HI : heaps.
  Context {A : mach} {C F : ordT}.
  (** clearing.rs 33-34 *)
  Definition x_rc : Type := kmap C (redcol A C).
  (** clearing.rs 110-137 *)
  Fixpoint x_crm_fuel (fuel : nat) (D : xoracle A C C) (rc : x_rc) (c : C) : res (list (A * C)) :=
    match fuel with
    | O => NoFuel
    | S fuel =>
        do e <- unwrap (map_get c rc);
        match e with
        | Cleared j => do vj <- x_crm_fuel fuel D rc j; x_col_product D vj
        | Reduced l => Ok (l ++ [(x_one, c)])
        end
    end.
  Definition x_crm (D : xoracle A C C) (rc : x_rc) : xoracle A C C := fun c => x_crm_fuel (S (length rc)) D rc c.
  (** clearing.rs 71-81 *)
  Definition x_col_is_cycle (D : xmatrix A C C F) (rc : x_rc) (c : C) : res bool :=
    do e <- unwrap (map_get c rc);
    match e with
    | Cleared _ => Ok true
    | Reduced _ =>
        do r_col <- x_build HI (x_product_f (x_ref D) (x_crm (x_col D) rc)) c;
        do (o, _) <- x_pop_pivot r_col;
        Ok (match o with None => true | Some _ => false end)
    end.
  (** clearing.rs 157-162 *)
  Record xbuilder : Type := XBuilder { xb_dgm : diagram C; xb_rc : x_rc }.
  (** clearing.rs 191-233 *)
  Fixpoint x_reduce_column (fuel : nat) (D : xmatrix A C C F) (rc : x_rc) (low : @x_low A C)
      (r_i : bhcol HI F C A) (v_i : bhcol HI unit_ord C A) : res (bhcol HI F C A * bhcol HI unit_ord C A) :=
    match fuel with
    | O => NoFuel
    | S fuel =>
        do (o, r_i) <- x_clone_pivot r_i;
        match o with
        | None => Ok (r_i, v_i)
        | Some pivot =>
            match map_get (e_row pivot) low with
            | None => Ok (r_i, v_i)
            | Some (j, j_coeff) =>
                do np <- x_neg (e_coeff pivot); do ij <- x_inv j_coeff; do col_multiple <- x_mul np ij;
                let v_matrix := x_trivial (x_crm (x_col (x_ref D)) rc) in
                let r_matrix := x_product_f (x_ref D) (x_col (x_ref v_matrix)) in
                do es <- x_colf r_matrix j; do es <- mapM (fun e => x_scale e col_multiple) es;
                do vs <- x_colf v_matrix j; do vs <- mapM (fun e => x_scale e col_multiple) vs;
                x_reduce_column fuel D rc low (add_entries r_i es) (add_entries v_i vs)
            end
        end
    end.
  (** clearing.rs 235-279 *)
  Definition x_save_column (bd : xbuilder) (c : C) (low : @x_low A C) (r_i : bhcol HI F C A) (v_i : bhcol HI unit_ord C A)
      : res (xbuilder * @x_low A C) :=
    let '(dgm, rc, low) :=
      match peek_pivot r_i with
      | Some pivot =>
          (Diagram (essential (xb_dgm bd)) (@set_insert (pair_ord C C) (e_row pivot, c) (pairings (xb_dgm bd))),
           map_insert (e_row pivot) (Cleared c) (xb_rc bd),
           map_insert (e_row pivot) (c, e_coeff pivot) low)
      | None => (Diagram (set_insert c (essential (xb_dgm bd))) (pairings (xb_dgm bd)), xb_rc bd, low)
      end in
    do (es, _) <- x_drain_sorted v_i;
    Ok (XBuilder dgm (map_insert c (Reduced (map e_term es)) rc), low).
  (** clearing.rs 289-312 *)
  Definition x_clear_step (fuel : nat) (D : xmatrix A C C F) (sub : basis C) (st : xbuilder * @x_low A C) (i : nat)
      : res (xbuilder * @x_low A C) :=
    let '(bd, low) := st in
    do c <- b_elem sub i;
    if map_mem c (xb_rc bd) then Ok (bd, low)
    else
      let v_i := empty_bhcol HI unit_ord C A in
      do r_i <- x_build HI D c;
      do (r_i, v_i) <- x_reduce_column fuel D (xb_rc bd) low r_i v_i;
      x_save_column bd c low r_i v_i.
  (** clearing.rs 281-313 *)
  Definition x_reduce_dimension (fuel : nat) (D : xmatrix A C C F) (sb : split_basis C) (bd : xbuilder) (dim : nat) : res xbuilder :=
    do sub <- sb_dim sb dim;
    do (bd, _) <- foldM (x_clear_step fuel D sub) (seq 0 (b_size sub)) (bd, []);
    Ok bd.
  (** clearing.rs 173-189, 315-320, 343-356 *)
  Definition x_build_with_diagram (fuel : nat) (D : xmatrix A C C F) (sb : split_basis C) (dims : list nat)
      : res (x_rc * diagram C) :=
    do bd <- foldM (x_reduce_dimension fuel D sb) dims (XBuilder (Diagram [] []) []);
    Ok (xb_rc bd, xb_dgm bd).
End Clearing.

(* ------------------------------------------------------------------ *)
(** ** Heaps that do not look at coefficients *)

(** changing the coefficient of an entry *)
Definition emap {F R X Y : Type} (f : X -> Y) (e : entry F R X) : entry F R Y := Entry (e_fil e) (e_row e) (f (e_coeff e)).

(** [std::collections::BinaryHeap] only compares its elements, and comparing entries does not look at coefficients
    (columns.rs 79-83): renaming the coefficients of a heap commutes with every heap operation. *)
Record uniform (HI : heaps) : Type := Uniform {
  hmap : forall (F R : ordT) (X Y : Type) (f : X -> Y), bhcol HI F R X -> bhcol HI F R Y;
  hmap_empty : forall F R X Y (f : X -> Y), hmap F R f (empty_bhcol HI F R X) = empty_bhcol HI F R Y;
  hmap_push : forall F R X Y (f : X -> Y) e h, hmap F R f (hp_push (HI F R X) e h) = hp_push (HI F R Y) (emap f e) (hmap F R f h);
  hmap_pop : forall F R X Y (f : X -> Y) h, hp_pop (HI F R Y) (hmap F R f h) = option_map (fun p => (emap f (fst p), hmap F R f (snd p))) (hp_pop (HI F R X) h);
  hmap_elems : forall F R X Y (f : X -> Y) h, hp_elems (HI F R Y) (hmap F R f h) = map (emap f) (hp_elems (HI F R X) h)
}.
Arguments hmap {HI} _ _ _ {X Y} _ _.
