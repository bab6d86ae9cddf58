(** grpph on raw doubles (`f64`: NaN, both zeros and both infinities): the edge filter, petgraph's dijkstra and the conversion to [NotNan] before the filtration is built.
    Elsewhere (Grpph.v, Dijkstra.v) the weights are already [NotNan]s. *)
From Coq Require Import ZArith Lia Arith.
From Flocq Require Import Core BinarySingleNaN.
From Verif Require Import Base Fields FieldsFacts Spec LinAlg Columns ColumnsFacts Matrices Reduction Grpph StdHeap Float64.
Set Implicit Arguments.

#[local] Existing Instance prec_gt_0_53.
#[local] Existing Instance prec_lt_emax_1024.

(** the operators [<], [==] and [+] of `f64` (IEEE 754: every comparison with a NaN is false) *)
Definition raw_lt (a b : f64) : bool := match Bcompare a b with Some Lt => true | _ => false end.
Definition raw_eq (a b : f64) : bool := match Bcompare a b with Some Eq => true | _ => false end.
Definition raw_add (a b : f64) : f64 := Bplus mode_NE a b.

(** petgraph src/scored.rs: [MinScored::cmp], in which NaN is the least *)
Definition raw_min_scored (x y : f64 * nat) : comparison :=
  let a := fst x in let b := fst y in
  if raw_eq a b then Eq
  else if raw_lt a b then Gt
  else if raw_lt b a then Lt
  else if negb (raw_eq a a) && negb (raw_eq b b) then Eq
  else if negb (raw_eq a a) then Lt else Gt.

(** petgraph 0.6.5 src/algo/dijkstra.rs with [goal = None], as called at phlite_grpph/src/lib.rs 40: scores of type `f64`, starting at [K::default() = +0.0].
    [adj] is [graph.edges(node)].  See Dijkstra.v for the same loop over an ordered type. *)
Record rstate := RState { rscores : nat -> option f64; rvisited : list nat; rqueue : list (f64 * nat) }.
Definition set_rscore (s : nat -> option f64) (v : nat) (d : f64) : nat -> option f64 := fun u => if u =? v then Some d else s u.
Definition is_rvisited (s : rstate) (v : nat) : bool := if in_dec Nat.eq_dec v (rvisited s) then true else false.
Definition raw_relax (node_score : f64) (s : rstate) (e : nat * f64) : rstate :=
  let next := fst e in
  if is_rvisited s next then s
  else
    let next_score := raw_add node_score (snd e) in
    let s' := RState (set_rscore (rscores s) next next_score) (rvisited s) (ah_push raw_min_scored (next_score, next) (rqueue s)) in
    match rscores s next with
    | Some old => if raw_lt next_score old then s' else s
    | None => s'
    end.
Fixpoint raw_loop (adj : nat -> list (nat * f64)) (fuel : nat) (s : rstate) : res rstate :=
  match fuel with
  | O => NoFuel
  | S fuel =>
    match ah_pop raw_min_scored (rqueue s) with
    | None => Ok s
    | Some ((node_score, node), q) =>
      let s := RState (rscores s) (rvisited s) q in
      if is_rvisited s node then raw_loop adj fuel s
      else let s := fold_left (raw_relax node_score) (adj node) s in raw_loop adj fuel (RState (rscores s) (node :: rvisited s) (rqueue s))
    end
  end.
Definition raw_start (x : nat) : rstate := RState (set_rscore (fun _ => None) x (Zero false)) [] (ah_push raw_min_scored (Zero false, x) []).
Definition raw_dijkstra (adj : nat -> list (nat * f64)) (fuel x : nat) : res (nat -> option f64) := do s <- raw_loop adj fuel (raw_start x); Ok (rscores s).

(** [Graph::edges] (petgraph): the edges leaving a node, most recently added first *)
Definition graph_edges {A : Type} (edges : list (nat * nat * A)) (u : nat) : list (nat * A) :=
  rev (map (fun e => (snd (fst e), snd e)) (filter (fun e => fst (fst e) =? u) edges)).

(** phlite_grpph/src/lib.rs 32-35: only the edges with [*t < f64::INFINITY] are added to the graph *)
Definition raw_finite_edges (edges : list (nat * nat * f64)) : list (nat * nat * f64) := filter (fun e => raw_lt (snd e) (Inf false)) edges.

(** lib.rs 23-55: [build_filtration]; [NotNan::new(t).unwrap()] (49) panics on NaN *)
Definition raw_build_filtration (n_vertices : nat) (edges : list (nat * nat * f64)) : res (list (list (option notnan_ord))) :=
  let g := raw_finite_edges edges in
  mapM (fun i =>
    do sp_lengths <- raw_dijkstra (graph_edges g) (S (S (length g))) i;
    mapM (fun j =>
      if i =? j then Ok None
      else match sp_lengths j with
           | None => Ok None
           | Some t => match not_nan t with Some x => Ok (Some (x : notnan_ord)) | None => Panic end
           end) (seq 0 n_vertices)) (seq 0 n_vertices).

(** lib.rs 57-62: [build_edge_set]: whatever the weight *)
Definition raw_edge_set (edges : list (nat * nat * f64)) : list edge_ord :=
  fold_left (fun s (e : nat * nat * f64) => @set_insert edge_ord (as_u16 (fst (fst e)), as_u16 (snd (fst e))) s) edges [].

Section Raw.
  Variables (HI : heaps) (fuel : nat).
  (** lib.rs 71-110: [grpph] *)
  Definition raw_grpph (n_vertices : nat) (edges : list (nat * nat * f64)) : res (list (list notnan_ord) * list (list (notnan_ord * notnan_ord))) :=
    do rows <- raw_build_filtration n_vertices edges;
    let filtration := vec_filtration rows in
    let edge_set := raw_edge_set edges in
    do (d, (_, dg)) <- grpph_reduce (F:=notnan_ord) HI fuel zero64 inf64 (K:=Z2_coeff) filtration edge_set (as_u16 n_vertices);
    do ess <- translate_essential (m_fil d) (essential dg);
    do prs <- translate_pairings (m_fil d) (pairings dg);
    Ok (ess, prs).
  (** lib.rs 117-201: [grpph_with_involution] *)
  Definition raw_grpph_with_involution (n_vertices : nat) (edges : list (nat * nat * f64))
      : res (list (list notnan_ord) * list (list (notnan_ord * notnan_ord)) * list (list (nat * nat))) :=
    do rows <- raw_build_filtration n_vertices edges;
    let filtration := vec_filtration rows in
    let edge_set := raw_edge_set edges in
    do (d, (_, dg)) <- grpph_reduce (F:=notnan_ord) HI fuel zero64 inf64 (K:=Z2_coeff) filtration edge_set (as_u16 n_vertices);
    do ess <- translate_essential (m_fil d) (essential dg);
    do ib <- involution_basis (m_fil d) (pairings dg);
    do prs <- translate_pairings (m_fil d) (pairings dg);
    do reps <- involution_reps (F:=notnan_ord) HI fuel zero64 (K:=Z2_coeff) (m_fil d) filtration edge_set ib;
    Ok (ess, prs, reps).
End Raw.
