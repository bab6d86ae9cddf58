(** Specification of grounded persistent path homology from the definition: chains of edges and of two-edge paths,
    the boundary-invariant 2-paths of the digraph at a time, cycles, boundaries, and the dimension of the image of the
    homology at one time in the homology at another.  No generating cells are mentioned. *)
From Verif Require Import Base Fields Spec GrpphCells SpecGrpph.
Set Implicit Arguments.

Section PathHomology.
  Context {K : coeffT} {F : ordT}.
  (** vertices [0 .. n-1], all present from time [z]; [time] of the edges of the filtration; [E] the edges of the
      ground digraph, present from time [z] too *)
  Variables (time : nat -> nat -> option F) (n : nat) (z : F) (E : list (nat * nat)).

  Definition node_chain := nat -> option K.
  Definition edge_chain := nat -> nat -> option K.
  Definition path_chain := nat -> nat -> nat -> option K.

  (** the edges of the filtration at time [t], and those of the grounded complex *)
  Definition edge_at (t : F) (x y : nat) : Prop := exists f, time x y = Some f /\ ole f t.
  Definition grounded_edge_at (t : F) (x y : nat) : Prop := (In (x, y) E /\ ole z t) \/ (~ In (x, y) E /\ edge_at t x y).

  (** the boundary of a chain of paths [a -> b -> c] and of a chain of edges [x -> y] *)
  Definition path_bdry (u : path_chain) : edge_chain := fun x y =>
    vsum (seq 0 n) (fun a => vsum (seq 0 n) (fun b => vsum (seq 0 n) (fun c => fmul (u a b c) (path_boundary a b c x y)))).
  Definition edge_bdry (e : edge_chain) : node_chain := fun v =>
    vsum (seq 0 n) (fun x => vsum (seq 0 n) (fun y => fmul (e x y) (fsub (delta (y =? v)) (delta (x =? v))))).

  (** Omega_2 of the digraph at time [t]: chains of paths whose edges are present and whose boundary consists of edges
      that are present *)
  Definition invariant_2_paths (t : F) (u : path_chain) : Prop :=
    (forall a b c, u a b c <> f0 -> edge_at t a b /\ edge_at t b c) /\
    (forall x y, path_bdry u x y <> f0 -> edge_at t x y).

  (** the chains [X], for the 2-cells [X] of [L], form a basis of Omega_2 *)
  Definition omega_2_basis (t : F) (L : list cell2) : Prop :=
    NoDup L /\
    (forall X, In X L -> invariant_2_paths t (path_coef X)) /\
    (forall u, invariant_2_paths t u -> exists w : cell2 -> option K, forall a b c, u a b c = vsum L (fun X => fmul (w X) (path_coef X a b c))) /\
    (forall w : cell2 -> option K, (forall a b c, vsum L (fun X => fmul (w X) (path_coef X a b c)) = f0) -> forall X, In X L -> w X = f0).

  Definition edges_at (t : F) (e : edge_chain) : Prop := forall x y, e x y <> f0 -> grounded_edge_at t x y.
  Definition nodes_at (t : F) (p : node_chain) : Prop := forall v, p v <> f0 -> v < n /\ ole z t.
  Definition cycle_1 (t : F) (e : edge_chain) : Prop := edges_at t e /\ forall v, edge_bdry e v = f0.
  Definition boundary_1 (t : F) (e : edge_chain) : Prop := exists u, invariant_2_paths t u /\ forall x y, e x y = path_bdry u x y.
  Definition boundary_0 (t : F) (p : node_chain) : Prop := exists e, edges_at t e /\ forall v, p v = edge_bdry e v.

  (** the image of H_1 at time [s] in H_1 at time [t] has dimension [k] *)
  Definition path_betti_1 (s t : F) (k : nat) : Prop :=
    exists (I : ordT) (bars : list I) (Z : I -> edge_chain), NoDup bars /\ length bars = k /\
      (forall b, In b bars -> cycle_1 s (Z b)) /\
      (forall e, cycle_1 s e -> exists a : vec K I, boundary_1 t (fun x y => fsub (e x y) (vsum bars (fun b => fmul (a b) (Z b x y))))) /\
      (forall a : vec K I, boundary_1 t (fun x y => vsum bars (fun b => fmul (a b) (Z b x y))) -> forall b, In b bars -> a b = f0).
  (** likewise for H_0, where every chain of nodes is a cycle *)
  Definition path_betti_0 (s t : F) (k : nat) : Prop :=
    exists (I : ordT) (bars : list I) (Z : I -> node_chain), NoDup bars /\ length bars = k /\
      (forall b, In b bars -> nodes_at s (Z b)) /\
      (forall p, nodes_at s p -> exists a : vec K I, boundary_0 t (fun v => fsub (p v) (vsum bars (fun b => fmul (a b) (Z b v))))) /\
      (forall a : vec K I, boundary_0 t (fun v => vsum bars (fun b => fmul (a b) (Z b v))) -> forall b, In b bars -> a b = f0).

  (** the sum of the edges of a list *)
  Definition edges_sum (rep : list (nat * nat)) : edge_chain := fun x y => vsum rep (fun e => delta ((fst e =? x) && (snd e =? y))).
  (** the classes of the chains [Zs] form a basis of the image of H_1 at time [s] in H_1 at time [t] *)
  Definition combination (w : list (option K)) (Zs : list edge_chain) : edge_chain := fun x y => vsum (combine w Zs) (fun p => fmul (fst p) (snd p x y)).
  Definition image_basis_1 (s t : F) (Zs : list edge_chain) : Prop :=
    (forall Z, In Z Zs -> cycle_1 s Z) /\
    (forall e, cycle_1 s e -> exists w, length w = length Zs /\ boundary_1 t (fun x y => fsub (e x y) (combination w Zs x y))) /\
    (forall w, length w = length Zs -> boundary_1 t (combination w Zs) -> forall k, In k w -> k = f0).
  (** The sum of the edges [rep] represents the bar [(birth, death)]: a cycle at its birth that becomes a boundary exactly
      at its death. *)
  Definition bar_representative (bar : F * F) (rep : list (nat * nat)) : Prop :=
    NoDup rep /\ cycle_1 (fst bar) (edges_sum rep) /\ boundary_1 (snd bar) (edges_sum rep) /\
    forall t, olt t (snd bar) -> ~ boundary_1 t (edges_sum rep).
End PathHomology.

(** The number of bars born by [s] and still alive at [t], among bars [es] that never die and bars [ps] given as
    (birth, death). *)
Definition bars_alive {F : ordT} (s t : F) (es : list F) (ps : list (F * F)) : nat :=
  length (filter (fun b => oleb b s) es) + length (filter (fun p => oleb (fst p) s && oltb t (snd p)) ps).
(** Of bars that never die with their cycles [es], and of finite bars with their representatives [ps], the chains of those
    born by [s] and still alive at [t]. *)
Definition chains_alive {K : coeffT} {F : ordT} (s t : F) (es : list (F * edge_chain (K:=K))) (ps : list (F * F * list (nat * nat))) : list (edge_chain (K:=K)) :=
  map snd (filter (fun p => oleb (fst p) s) es) ++
  map (fun p => edges_sum (snd p)) (filter (fun p => oleb (fst (fst p)) s && oltb t (snd (fst p))) ps).
