(** The repository's own unit tests, replayed on the model (not proofs of anything, a check that the model computes what the code computes).
    Every test with an assertion is here, with the values the Rust test asserts; both heaps are used.
    The two larger path-homology tests run on 30 vertices in the repository, here on 6 (the theorems C65 and C66 cover every size).
    [test_grpph_coboundary] asserts only the size of an enum in memory, which the model does not have. *)
From Verif Require Import Base Fields FieldsFacts Columns Matrices Reduction Rips StdHeap GrpphCells Grpph Examples.
Set Implicit Arguments.

Definition both (f : heaps -> bool) : bool := f list_heaps && f std_heaps.
Definition ok_true (r : res bool) : bool := match r with Ok b => b | _ => false end.
Definition z2_matrix (cols : list (list nat)) : oracle Z2_coeff nat_ord nat_ord := vecvec_column (R:=nat_ord) (vecvec_new_all_one (K:=Z2_coeff) (R:=nat_ord) cols).

(** phlite/src/matrices/tests.rs 16-50 *)
Example test_matrix_product : both (fun HI =>
  let matrix_d := z2_matrix [[]; []; []; [0; 1]; [1; 2]; [0; 2]; [3; 4; 5]] in
  let matrix_v := z2_matrix [[0]; [1]; [2]; [3]; [4]; [3; 4; 5]; [6]] in
  let true_matrix_r := z2_matrix [[]; []; []; [0; 1]; [1; 2]; []; [3; 4; 5]] in
  forallb (fun i => ok_true (eq_on_col HI (product matrix_d matrix_v) true_matrix_r i)) (seq 0 7)) = true.
Proof. vm_compute. reflexivity. Qed.

(** phlite/src/matrices/tests.rs 52-112: the three parts *)
Fixpoint pops {HI : heaps} {F : ordT} (n : nat) (h : bhcol HI F nat_ord Z2_coeff) : res (list (option (Z2_coeff * nat_ord * F))) :=
  match n with
  | 0 => Ok []
  | S n => do (e, h') <- pop_pivot h; do l <- pops n h'; Ok (match e with Some x => Some (tuple_of_entry x) | None => None end :: l)
  end.
Definition adds (HI : heaps) {F : ordT} (m : fmatrix Z2_coeff nat_ord nat_ord F) (cols : list nat) : res (bhcol HI F nat_ord Z2_coeff) :=
  fold_left (fun acc c => do h <- acc; do es <- m_colf m c; Ok (add_entries h es)) cols (Ok (empty_bhcol HI F nat_ord Z2_coeff)).
Definition bh_test (HI : heaps) {F : ordT} (m : fmatrix Z2_coeff nat_ord nat_ord F) (cols : list nat) (n : nat) : res (list (option (Z2_coeff * nat_ord * F))) :=
  do h <- adds HI m cols; pops n h.
Definition bh_matrix : fmatrix Z2_coeff nat_ord nat_ord nat_ord :=
  with_filtration (z2_matrix [[]; []; []; [0; 1]; [1; 2]; [0; 2]; [3; 4; 5]]) (fun idx => Ok (idx * 10 : nat_ord)).
Definition opp_matrix : fmatrix Z2_coeff nat_ord nat_ord Z_ord :=
  with_filtration (m_col bh_matrix) (fun idx => do f <- m_fil bh_matrix idx; Ok (- Z.of_nat f : Z_ord)%Z).
Example test_matrix_bhcol_interface :
  (forall HI, HI = list_heaps \/ HI = std_heaps ->
   bh_test HI bh_matrix [5; 4] 3 = Ok [Some (Z2, 1, 10); Some (Z2, 0, 0); None] /\
   bh_test HI opp_matrix [5; 4] 3 = Ok [Some (Z2, 0, 0%Z); Some (Z2, 1, (-10)%Z); None] /\
   bh_test HI bh_matrix [5; 4; 3] 1 = Ok [None] /\
   (do h <- adds HI bh_matrix [6; 6]; do v <- to_sorted_vec h; Ok (length v)) = Ok 0).
Proof. intros HI [->| ->]; vm_compute; auto. Qed.

(** phlite/src/matrices/tests.rs 114-129 *)
Example test_consolidate : forall HI, HI = list_heaps \/ HI = std_heaps ->
  let mat := z2_matrix [[0]; [0; 1]] in
  let mat4 := product (product mat mat) (product mat mat) in
  (do c <- mat4 1; Ok (length c)) = Ok 5 /\ (do c <- consolidate HI mat4 1; Ok (length c)) = Ok 1.
Proof. intros HI [->| ->]; vm_compute; auto. Qed.

(** phlite/src/matrices/tests.rs 131-150 *)
Example test_projection : both (fun HI =>
  let base_matrix := z2_matrix [[4; 3; 12]; [5; 9; 4]; [0; 1; 0]; [1; 2; 4; 4]] in
  let projection_matrix := z2_matrix [[]; []; []; []; [4]; []; []; []; []; []; []; []; []] in
  let true_matrix := z2_matrix [[4]; [4]; []; []] in
  forallb (fun i => ok_true (eq_on_col HI (product projection_matrix base_matrix) true_matrix i)) (seq 0 4)) = true.
Proof. vm_compute. reflexivity. Qed.

(** phlite/src/matrices/tests.rs 152-200: only the bases are asserted *)
Example test_basis_reverse :
  let b := vec_basis [0; 1; 3] in let rb := reverse_basis b in let ub := unreverse_basis rb in
  map (b_elem b) [0; 1; 2] = [Ok 0; Ok 1; Ok 3] /\
  map (b_elem rb) [0; 1; 2] = [Ok (Reverse 3); Ok (Reverse 1); Ok (Reverse 0)] /\
  map (b_elem ub) [0; 1; 2] = [Ok 0; Ok 1; Ok 3].
Proof. vm_compute. auto. Qed.

(** phlite/src/fields.rs 315-343 *)
Example test_add_mod_2 : z2_add Z2 Z2 = None /\ add_opt z2_add Z2 None = Some Z2.
Proof. vm_compute. auto. Qed.
Example test_prod_mod_2 : z2_mul Z2 Z2 = Z2.
Proof. reflexivity. Qed.
Example test_add_mod_3 : zp_add 3 zp_one zp_one = Ok (Some 2%Z) /\ zp_add 3 zp_one 2 = Ok None.
Proof. vm_compute. auto. Qed.
Example test_prod_mod_3 : zp_mul 3 2 zp_one = Ok 2%Z /\ zp_mul 3 zp_one 2 = Ok 2%Z /\ zp_mul 3 2 2 = Ok zp_one /\ zp_mul 3 zp_one zp_one = Ok zp_one.
Proof. vm_compute. auto. Qed.

(** phlite/src/reduction/mod.rs 31-57 *)
Example test_inefficient_reduction : both (fun HI =>
  let matrix_d := z2_matrix [[]; []; []; [0; 1]; [1; 2]; [0; 2]; [3; 4; 5]; [3; 4; 5]] in
  let true_matrix_r := z2_matrix [[]; []; []; [0; 1]; [1; 2]; []; [3; 4; 5]; []] in
  match standard_algo HI 20 (by_ref (with_trivial_filtration matrix_d)) (standard_basis 8) with
  | Ok v => forallb (fun i => ok_true (eq_on_col HI (product matrix_d (mapvec_column v)) true_matrix_r i)) (seq 0 8)
  | _ => false
  end) = true.
Proof. vm_compute. reflexivity. Qed.

(** The square of phlite_rips/src/cohomology.rs 232-243, with 1, sqrt 2 written 2, 3 (the times do not enter the assertions beyond their order) *)
Definition square4 : list (list nat_ord) := [[0; 2; 3; 2]; [2; 0; 2; 3]; [3; 2; 0; 2]; [2; 3; 2; 0]].
Definition u64 : N := 2 ^ 64.
(** phlite_rips/src/cohomology.rs 197-230 *)
Example test_coboundary :
  let len s := do i <- from_indices u64 4 s; match i with Some c => do col <- rips_coboundary_column (K:=Z2_coeff) u64 square4 c; Ok (length col) | None => Panic end in
  len [1; 2; 3] = Ok 1 /\ len [0; 3] = Ok 2 /\ len [1] = Ok 3.
Proof. vm_compute. auto. Qed.
(** phlite_rips/src/cohomology.rs 246-278 *)
Example test_rips_total_coboundary : forall HI, HI = list_heaps \/ HI = std_heaps ->
  (do (m, sb) <- build_rips_coboundary_matrix (K:=Z2_coeff) u64 (0 : nat_ord) square4 2;
   do (v, dg) <- standard_algo_with_diagram HI 30 (by_ref (reverse_f m)) (sb_total (reverse_split sb)) false;
   Ok (length (pairings dg), length (essential dg))) = Ok (7, 1).
Proof. intros HI [->| ->]; vm_compute; auto. Qed.
(** phlite_rips/src/cohomology.rs 280-312 *)
Example test_clearing : forall HI, HI = list_heaps \/ HI = std_heaps ->
  (do (rc, dg) <- rips_cohomology HI (K:=Z2_coeff) 30 u64 (0 : nat_ord) square4 1; Ok (length (pairings dg), length (essential dg))) = Ok (6, 1).
Proof. intros HI [->| ->]; vm_compute; auto. Qed.
(** phlite_rips/src/homology.rs 149-180 *)
Example test_rips_total_boundary : forall HI, HI = list_heaps \/ HI = std_heaps ->
  (do (m, sb) <- build_rips_boundary_matrix (K:=Z2_coeff) u64 (0 : nat_ord) square4 2;
   do (v, dg) <- standard_algo_with_diagram HI 30 (by_ref m) (sb_total sb) false;
   Ok (length (pairings dg), length (essential dg))) = Ok (6, 2).
Proof. intros HI [->| ->]; vm_compute; auto. Qed.
(** phlite_rips/src/lib.rs 233-245 *)
Example test_rips_index :
  let round s := do i <- from_indices u64 20 s; match i with Some c => to_vec 20 c | None => Panic end in
  round [5; 12; 7] = Ok [5; 12; 7] /\ round [5; 12; 0] = Ok [5; 12; 0].
Proof. vm_compute. auto. Qed.

(** phlite_grpph/src/coboundary.rs 612-654 and 656-702, on 6 vertices: (number of pairs with different times, number of essential cells) *)
Definition grpph_counts (HI : heaps) (fil : kmap edge_ord nat) (edges : list edge_ord) (n : nat) : res (nat * nat) :=
  do (d, (_, dg)) <- grpph_reduce HI 40 (0 : nat_ord) (1000 : nat_ord) (K:=Z2_coeff) (map_filtration (F:=nat_ord) fil) edges n;
  do proper <- flat_mapM (fun p => do birth_f <- m_fil d (unrev (snd p)); do death_f <- m_fil d (unrev (fst p)); Ok (if death_f =? birth_f then [] else [p])) (pairings dg);
  Ok (length proper, length (essential dg)).
Example test_grpph_cycle : forall HI, HI = list_heaps \/ HI = std_heaps ->
  let n := 6 in
  grpph_counts HI (flat_map (fun i => map (fun j => ((i, (i + j) mod n), j)) (seq 1 (n - 1))) (seq 0 n)) (map (fun i => (i, (i + 1) mod n)) (seq 0 n)) n = Ok (1, 1).
Proof. intros HI [->| ->]; vm_compute; auto. Qed.
Example test_grpph_complete : forall HI, HI = list_heaps \/ HI = std_heaps ->
  let n := 6 in
  let edges := flat_map (fun i => flat_map (fun j => if i =? j then [] else [(i, j)]) (seq 0 n)) (seq 0 n) in
  grpph_counts HI (map (fun e => (e, 1)) edges) edges n = Ok (n * (n - 1) - n + 1, 1).
Proof. intros HI [->| ->]; vm_compute; auto. Qed.
