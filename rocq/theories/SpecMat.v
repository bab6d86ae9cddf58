(** What a matrix oracle denotes, and the contract between the methods of
    [HasRowFiltration] and [ColBasis] that the library asks of its users. *)
From Verif Require Import Base Fields Columns Matrices Spec.
Set Implicit Arguments.

(** The column [c] as a vector. *)
Definition mden {K : coeffT} {C R : ordT} (m : oracle K C R) (c : C) : vec K R :=
  fun r => match m c with Ok l => coef l r | _ => f0 end.

(** Column [c] is available, its rows have filtration values given by [phi],
    and [column_with_filtration] represents the same column with those values. *)
Definition coherent_at {K : coeffT} {C R F : ordT} (phi : R -> F) (D : fmatrix K C R F) (c : C) : Prop :=
  exists l es,
    m_col D c = Ok l /\ m_colf D c = Ok es /\
    (forall k r, In (k, r) l -> m_fil D r = Ok (phi r)) /\
    (forall e, In e es -> e_fil e = phi (e_row e)) /\
    (forall r, coef (map e_term es) r = coef l r).

(** The basis object enumerates exactly the list [l]. *)
Definition enumerates {C : Type} (b : basis C) (l : list C) : Prop :=
  b_size b = length l /\ forall i c, nth_error l i = Some c -> b_elem b i = Ok c.

(** The distinct rows occurring in the columns of [l]. *)
Definition row_set {K : coeffT} {C R : ordT} (m : oracle K C R) (l : list C) : list R :=
  nodup ord_eq_dec (flat_map (fun c => match m c with Ok t => map snd t | _ => [] end) l).

(** The vector stored for column [c] in a table of columns. *)
Definition stored {K : coeffT} {C : ordT} (v : kmap C (list (K * C))) (c : C) : vec K C :=
  mden (mapvec_column v) c.

(** The contract under which a square matrix with a column basis is reduced:
    the basis [b] lists the distinct elements [l], and each of those columns is available and coherent. *)
Definition square_matrix {K : coeffT} {C F : ordT} (phi : C -> F) (D : fmatrix K C C F) (b : basis C) (l : list C) : Prop :=
  NoDup l /\ enumerates b l /\ forall c, In c l -> coherent_at phi D c.

(** [column_with_filtration] lists, in order, the terms of [column] each with the
    [filtration_value] of its row. *)
Definition lists_filtration {K : coeffT} {C R F : ordT} (D : fmatrix K C R F) (c : C) : Prop :=
  exists l es, m_col D c = Ok l /\ m_colf D c = Ok es /\
    Forall2 (fun (p : K * R) (e : entry F R K) =>
      e_coeff e = fst p /\ e_row e = snd p /\ m_fil D (snd p) = Ok (e_fil e)) l es.

(** Row [i] is the smallest non-zero row of [v]. *)
Definition trailing {K : coeffT} {F R : ordT} (phi : R -> F) (v : vec K R) (i : R) : Prop :=
  v i <> f0 /\ forall r, row_lt phi r i -> v r = f0.

(** The contract under which the clearing algorithm is run.  [blocks] lists, in the order in which the
    dimensions are visited, the basis elements of each dimension; the blocks are disjoint, every column
    is available and coherent, each block is listed in row order, the columns of one block have rows in the
    next one, where [D D = 0]; the columns of the last block have no entry in any block. *)
Definition block_complex {K : coeffT} {C F : ordT} (phi : C -> F) (D : fmatrix K C C F) (sb : split_basis C)
    (dims : list nat) (blocks : list (list C)) : Prop :=
  NoDup (concat blocks) /\
  Forall2 (fun d blk => exists sub, sb_dim sb d = Ok sub /\ enumerates sub blk) dims blocks /\
  (forall c, In c (concat blocks) -> coherent_at phi D c) /\
  (forall blk x y, In blk blocks -> before blk x y -> row_lt phi x y) /\
  (forall pre blk next post, blocks = pre ++ blk :: next :: post -> forall c, In c blk ->
     (forall t k r, m_col D c = Ok t -> In (k, r) t -> In r next) /\
     vzero (lincomb next (mden (m_col D) c) (mden (m_col D)))) /\
  (forall pre blk, blocks = pre ++ [blk] -> forall c r, In c blk -> mden (m_col D) c r <> f0 -> ~ In r (concat blocks)).

(** What is left of this without the order and without [D D = 0]: the blocks are disjoint, every column is available and coherent, and the rows
    of a block belong to no block up to it and are not rows of an earlier block. *)
Definition block_shape {K : coeffT} {C F : ordT} (phi : C -> F) (D : fmatrix K C C F) (sb : split_basis C)
    (dims : list nat) (blocks : list (list C)) : Prop :=
  NoDup (concat blocks) /\
  Forall2 (fun d blk => exists sub, sb_dim sb d = Ok sub /\ enumerates sub blk) dims blocks /\
  (forall c, In c (concat blocks) -> coherent_at phi D c) /\
  (forall pre blk post, blocks = pre ++ blk :: post -> forall c r, In c blk -> mden (m_col D) c r <> f0 ->
     ~ In r (concat pre ++ blk) /\ forall c', In c' (concat pre) -> mden (m_col D) c' r = f0).

(** The contract without any condition on the order in which the dimensions are visited: every element has a degree, each of the visited blocks
    consists of elements of one degree in row order, different blocks have different degrees, the rows of a column have the degree of the
    column plus [e], and lie in the block of that degree if one is visited and not empty; [D D = 0] on the visited blocks. *)
Definition graded_blocks {K : coeffT} {C F : ordT} (g : C -> Z) (e : Z) (phi : C -> F) (D : fmatrix K C C F) (sb : split_basis C)
    (dims : list nat) (blocks : list (list C)) : Prop :=
  let l := concat blocks in
  NoDup l /\
  Forall2 (fun d blk => exists sub, sb_dim sb d = Ok sub /\ enumerates sub blk) dims blocks /\
  (forall c, In c l -> coherent_at phi D c) /\
  (forall blk x y, In blk blocks -> before blk x y -> row_lt phi x y) /\
  e <> 0%Z /\
  (forall blk x y, In blk blocks -> In x blk -> In y l -> (g y = g x <-> In y blk)) /\
  (forall c t k r, In c l -> m_col D c = Ok t -> In (k, r) t ->
     g r = (g c + e)%Z /\ ((exists y, In y l /\ g y = g r) -> In r l)) /\
  (forall c, In c l -> vzero (lincomb l (mden (m_col D) c) (mden (m_col D)))).
(** The visits of a list of dimensions that are the first ones to their dimension. *)
Fixpoint first_visits (seen ds : list nat) : list nat :=
  match ds with
  | [] => []
  | d :: ds => if existsb (Nat.eqb d) seen then first_visits seen ds else d :: first_visits (d :: seen) ds
  end.
