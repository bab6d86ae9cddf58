(** Specification of weighted digraphs: walks, shortest-path filtrations, weak components. *)
From Verif Require Import Base.
From Coq Require Import Relations.
Set Implicit Arguments.

Section Walks.
  Context {F : ordT} (add : F -> F -> F) (z : F).
  (** [arc u v w]: there is an edge [u -> v] of weight [w] *)
  Variable arc : nat -> nat -> F -> Prop.

  (** walks and their lengths, summed from the first edge on *)
  Inductive walk (x : nat) : nat -> F -> Prop :=
  | walk_nil : walk x x z
  | walk_snoc u y d w : walk x u d -> arc u y w -> walk x y (add d w).
  Definition shortest (x y : nat) (d : F) : Prop := walk x y d /\ forall d', walk x y d' -> ole d d'.

  (** for vertices below [n], [dist x y] is the length of a shortest walk from [x] to [y], [None] if there is no walk *)
  Definition computes_shortest (n : nat) (dist : nat -> nat -> option F) : Prop :=
    forall x y, x < n -> y < n -> (forall d, dist x y = Some d -> shortest x y d) /\ (dist x y = None -> forall d, ~ walk x y d).
  (** the shortest-path filtration: an edge between any two distinct vertices joined by a walk *)
  Definition shortest_path_filtration (time : nat -> nat -> option F) : Prop :=
    (forall x, time x x = None) /\
    (forall x y d, time x y = Some d -> shortest x y d) /\ (forall x y, x <> y -> time x y = None -> forall d, ~ walk x y d).
End Walks.

(** what is used of the addition of non-negative numbers; rounding is allowed *)
Definition nonneg_add {F : ordT} (add : F -> F -> F) (z : F) : Prop :=
  (forall w, add z w = w) /\ (forall d w, ole z d -> ole z w -> ole d (add d w) /\ ole w (add d w)).

Section Digraph.
  Context {F : ordT}.
  (** the edges of a list; those of weight below [inf] *)
  Definition edge_of (edges : list (nat * nat * F)) (u v : nat) (w : F) : Prop := In (u, v, w) edges.
  Definition finite_edge_of (inf : F) (edges : list (nat * nat * F)) (u v : nat) (w : F) : Prop := In (u, v, w) edges /\ olt w inf.
  (** a digraph on the vertices [0 .. n-1] with non-negative weights; with positive weights *)
  Definition weighted_digraph (n : nat) (z : F) (edges : list (nat * nat * F)) : Prop :=
    forall u v w, In (u, v, w) edges -> u < n /\ v < n /\ ole z w.
  Definition positive_weights (z : F) (edges : list (nat * nat * F)) : Prop := forall u v w, In (u, v, w) edges -> olt z w.
  (** the lengths of shortest walks along edges of finite weight do not overflow to [inf] *)
  Definition no_overflow (add : F -> F -> F) (z inf : F) (edges : list (nat * nat * F)) : Prop :=
    forall x y d, shortest add z (finite_edge_of inf edges) x y d -> olt d inf.
  (** the contract of a shortest-path library on graphs with [n] vertices and non-negative weights *)
  Definition shortest_path_library (add : F -> F -> F) (z : F) (n : nat) (sp : list (nat * nat * F) -> nat -> nat -> option F) : Prop :=
    forall edges, weighted_digraph n z edges -> computes_shortest add z (edge_of edges) n (sp edges).
  (** [edges'] are the edges of [edges] with every vertex [v] renamed [sg v], in any order and multiplicity *)
  Definition renames (n : nat) (sg : nat -> nat) (edges edges' : list (nat * nat * F)) : Prop :=
    (forall x, x < n -> sg x < n) /\ (forall x y, x < n -> y < n -> sg x = sg y -> x = y) /\
    forall u v w, u < n -> v < n -> (In (u, v, w) edges <-> In (sg u, sg v, w) edges').
  (** weakly connected: joined by a path along edges in either direction *)
  Definition weakly_connected (E : list (nat * nat)) : nat -> nat -> Prop := clos_refl_sym_trans nat (fun x y => In (x, y) E).
  (** [R] has one vertex from each weak component of the digraph on [0 .. n-1] with edges [E] *)
  Definition component_representatives (n : nat) (E : list (nat * nat)) (R : list nat) : Prop :=
    NoDup R /\ (forall r, In r R -> r < n) /\
    (forall v, v < n -> exists r, In r R /\ weakly_connected E v r) /\
    (forall r r', In r R -> In r' R -> weakly_connected E r r' -> r = r').
End Digraph.
