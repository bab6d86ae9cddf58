(** Specification of grounded persistent path homology: filtered digraphs, two-paths, bridges, the generating
    2-cells and the boundary of regular paths.  Nothing here refers to the model of the code except the cell names. *)
From Verif Require Import Base Fields Spec GrpphCells.
Set Implicit Arguments.

Section Spec.
  Context {F : ordT}.
  (** [time s t] is the time at which the edge [s -> t] appears, [None] if it never does. *)
  Variable time : nat -> nat -> option F.

  (** no loops, vertices below [n], times at least [z] and strictly below [inf] *)
  Definition filtered_digraph (n : nat) (z inf : F) : Prop :=
    (forall s, time s s = None) /\
    (forall s t f, time s t = Some f -> s < n /\ t < n /\ ole z f /\ olt f inf).

  (** the time at which both edges of the path [a -> b -> c] are present *)
  Definition path_time (a b c : nat) : option F :=
    match time a b, time b c with Some f, Some g => Some (omax f g) | _, _ => None end.

  (** [a -> b -> c] appears strictly before the edge [a -> c], which may never appear. *)
  Definition bridge (a b c : nat) : Prop :=
    exists f, path_time a b c = Some f /\ forall g, time a c = Some g -> olt f g.
  (** the first bridge from [a] to [c], ties broken by the vertex *)
  Definition primary_bridge (a b c : nat) : Prop :=
    bridge a b c /\
    forall b' f f', path_time a b c = Some f -> path_time a b' c = Some f' -> olt f f' \/ (f = f' /\ b <= b').

  (** The generating 2-cells with the times at which they appear. *)
  Inductive generator : cell2 -> F -> Prop :=
  | gen_double a b f : path_time a b a = Some f -> generator (DoubleEdge a b) f
  | gen_triangle a b c f g : a <> c -> path_time a b c = Some f -> time a c = Some g -> ole g f ->
      generator (DirectedTriangle a b c) f
  | gen_collapse a b c g : a <> c -> primary_bridge a b c -> time a c = Some g -> generator (DirectedTriangle a b c) g
  | gen_square a b b' c f : a <> c -> primary_bridge a b c -> bridge a b' c -> b' <> b -> path_time a b' c = Some f ->
      generator (LongSquare a b b' c) f.

  (** An edge of the given digraph [E] is present from the start, any other from its time. *)
  Definition edge_birth (z : F) (E : list (nat * nat)) (s t : nat) (f : F) : Prop :=
    (In (s, t) E /\ f = z) \/ (~ In (s, t) E /\ time s t = Some f).

  (** The cells of the filtered complex with their births. *)
  Definition cell_birth (n : nat) (z : F) (E : list (nat * nat)) (c : cell) (f : F) : Prop :=
    match c with
    | Node s => s < n /\ f = z
    | Edge s t => edge_birth z E s t f
    | TwoCell x => generator x f
    end.

  (** [l] lists every cell once; [phi] gives its birth; within each dimension cells are listed by birth, ties broken
      by the order on cells. *)
  Definition cell_listing (n : nat) (z : F) (E : list (nat * nat)) (phi : cell -> F) (l : list cell) : Prop :=
    NoDup l /\ (forall c, In c l <-> exists f, cell_birth n z E c f) /\ (forall c f, cell_birth n z E c f -> phi c = f) /\
    graded_order (phi : cell_ord -> F) (fun c => Z.of_nat (cell_dimension c)) (l : list cell_ord).
End Spec.

Section Chains.
  Context {K : coeffT}.

  (** [1] if the condition holds, else [0] *)
  Definition delta (b : bool) : option K := if b then f1 else f0.

  (** The coefficient of the path [x -> y -> w] in a 2-cell. *)
  Definition path_coef (c : cell2) (x y w : nat) : option K :=
    let p a b c := delta ((a =? x) && (b =? y) && (c =? w)) in
    match c with
    | DoubleEdge a b => p a b a
    | DirectedTriangle a b c => p a b c
    | LongSquare a b c d => fsub (p a c d) (p a b d)
    end.

  (** The coefficient of the edge [s -> t] in the boundary of the regular path [a -> b -> c], which is
      [bc - ac + ab] with the term [ac] dropped when [a = c]. *)
  Definition path_boundary (a b c s t : nat) : option K :=
    let e x y := delta ((x =? s) && (y =? t)) in
    fadd (fsub (e b c) (if a =? c then f0 else e a c)) (e a b).

  (** The boundary of a cell. *)
  Definition cell_boundary (c : cell) : vec K cell := fun r =>
    match c, r with
    | Edge s t, Node v => fsub (delta (t =? v)) (delta (s =? v))
    | TwoCell (DoubleEdge a b), Edge s t => path_boundary a b a s t
    | TwoCell (DirectedTriangle a b c), Edge s t => path_boundary a b c s t
    | TwoCell (LongSquare a b c d), Edge s t => fsub (path_boundary a c d s t) (path_boundary a b d s t)
    | _, _ => f0
    end.

  (** The sum of the edges of a list. *)
  Definition edge_sum (rep : list (nat * nat)) : vec K cell := fun r =>
    match r with
    | Edge s t => vsum rep (fun e => delta ((fst e =? s) && (snd e =? t)))
    | _ => f0
    end.
  (** [v] is the boundary of a sum of 2-cells of [l] satisfying [P]. *)
  Definition bounds (l : list cell) (P : cell -> Prop) (v : vec K cell) : Prop :=
    exists x : vec K cell, (forall c, x c <> f0 -> In c l /\ cell_dimension c = 2 /\ P c) /\
      forall r, lincomb l x cell_boundary r = v r.
  (** The sum of the edges [rep] represents the bar born with [i] and killed by [j]: it is a cycle, [i] is its
      youngest edge, and it becomes a boundary exactly when [j] appears. *)
  Definition represents {F : ordT} (phi : cell -> F) (l : list cell) (i j : cell) (rep : list (nat * nat)) : Prop :=
    NoDup rep /\ (forall s t, In (s, t) rep -> In (Edge s t) l) /\
    vzero (lincomb l (edge_sum rep) cell_boundary) /\
    leading (phi : cell_ord -> F) (edge_sum rep : vec K cell_ord) (i : cell_ord) /\
    bounds l (fun c => row_le (phi : cell_ord -> F) c j) (edge_sum rep) /\
    ~ bounds l (fun c => row_lt (phi : cell_ord -> F) c j) (edge_sum rep).
End Chains.
