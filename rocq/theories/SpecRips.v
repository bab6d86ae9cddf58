(** Specification of the Vietoris-Rips part: simplices, faces, signs, place-value codes, diameters.
    Nothing here refers to the model of the code. *)
From Verif Require Import Base Fields Spec.
From Coq Require Import Sorted.
Set Implicit Arguments.

(** A simplex on the vertices [0 .. n-1]: a non-empty strictly increasing list of vertices. *)
Definition simplex (n : nat) (s : list nat) : Prop :=
  s <> [] /\ StronglySorted lt s /\ Forall (fun v => v < n) s.

(** The number whose digits in base [n + 1], least significant first, are the vertices plus one. *)
Fixpoint code (n : nat) (s : list nat) : N :=
  match s with
  | [] => 0%N
  | v :: t => ((N.of_nat v + 1) + (N.of_nat n + 1) * code n t)%N
  end.

(** [s] is [t] without its vertex number [i]. *)
Definition facet (t : list nat) (i : nat) (s : list nat) : Prop :=
  exists l1 v l2, t = l1 ++ v :: l2 /\ s = l1 ++ l2 /\ length l1 = i.

(** [(-1)^i] *)
Definition sign (K : coeffT) (i : nat) : option K := if Nat.even i then f1 else fopp f1.

(** Entry [(i, j)] of a matrix of distances. *)
Definition dist {F : ordT} (z : F) (d : list (list F)) (i j : nat) : F := nth j (nth i d []) z.
(** every row has an entry for every point (columns after these are tolerated) *)
Definition wide {F : ordT} (d : list (list F)) : Prop := forall row, In row d -> length d <= length row.
Definition square {F : ordT} (d : list (list F)) : Prop := forall row, In row d -> length row = length d.
(** square, symmetric, zero on the diagonal and nowhere below zero *)
Definition distance_matrix {F : ordT} (z : F) (d : list (list F)) : Prop :=
  square d /\
  (forall i j, i < length d -> j < length d -> dist z d i j = dist z d j i) /\
  (forall i, i < length d -> dist z d i i = z) /\
  (forall i j, i < length d -> j < length d -> ole z (dist z d i j)).
(** What the theorems below assume of an input: zero on the diagonal, and no entry below the diagonal exceeds both zero and its mirror
    image.  Distance matrices are like that, and so are upper triangular ones filled with zeros. *)
Definition rips_matrix {F : ordT} (z : F) (d : list (list F)) : Prop :=
  wide d /\
  (forall i, i < length d -> dist z d i i = z) /\
  (forall i j, i < j -> j < length d -> ole (dist z d j i) (dist z d i j) \/ ole (dist z d j i) z).
Lemma distance_rips {F : ordT} (z : F) (d : list (list F)) : distance_matrix z d -> rips_matrix z d.
Proof.
  intros (H1 & H2 & H3 & _). split; [intros row Hr; rewrite (H1 row Hr); auto|]. split; auto.
  intros i j Hij Hj. left. rewrite H2; [apply ole_refl|auto|]. exact (Nat.lt_trans _ _ _ Hij Hj).
Qed.

(** [d'] is the same set of points in another order: point [i] of [d] is point [sg i] of [d']. *)
Definition same_points {F : ordT} (z : F) (sg : nat -> nat) (d d' : list (list F)) : Prop :=
  length d' = length d /\ (forall i, i < length d -> sg i < length d) /\
  (forall i j, i < length d -> j < length d -> sg i = sg j -> i = j) /\
  forall i j, i < length d -> j < length d -> dist z d' (sg i) (sg j) = dist z d i j.

(** [f] is the largest distance between two vertices of [s]. *)
Definition diameter {F : ordT} (z : F) (d : list (list F)) (s : list nat) (f : F) : Prop :=
  (exists i j, In i s /\ In j s /\ dist z d i j = f) /\
  forall i j, In i s -> In j s -> ole (dist z d i j) f.

(** Every simplex with at most [k] vertices has a code below the word bound [uw]. *)
Definition codes_fit (uw : N) (n k : nat) : Prop :=
  forall s, simplex n s -> length s <= k -> (code n s < uw)%N.

(** [D] is the coboundary of the full complex on [n] points, simplices being named by their codes: the entry at a
    simplex and one of its facets is the sign of the omitted vertex, all other entries are zero. *)
Definition rips_coboundary_matrix (K : coeffT) (n : nat) (D : N -> vec K N) : Prop :=
  (forall s t i, simplex n s -> simplex n t -> facet t i s -> D (code n s) (code n t) = sign K i) /\
  (forall s r, simplex n s -> D (code n s) r <> f0 -> exists t i, simplex n t /\ facet t i s /\ r = code n t).
(** likewise the boundary *)
Definition rips_boundary_matrix (K : coeffT) (n : nat) (D : N -> vec K N) : Prop :=
  (forall s t i, simplex n s -> simplex n t -> facet t i s -> D (code n t) (code n s) = sign K i) /\
  (forall t r, simplex n t -> D (code n t) r <> f0 -> exists s i, simplex n s /\ facet t i s /\ r = code n s).

(** [phi] gives the simplex with code [c] its diameter. *)
Definition rips_filtration {F : ordT} (z : F) (d : list (list F)) (phi : N -> F) : Prop :=
  forall s, simplex (length d) s -> diameter z d s (phi (code (length d) s)).

(** [l] lists the codes of the simplices with at most [k] vertices once each, those with the same number of
    vertices by increasing (diameter, code). *)
Definition rips_order {F : ordT} (d : list (list F)) (phi : N_ord -> F) (k : nat) (l : list N) : Prop :=
  NoDup l /\
  (forall c, In c l <-> exists s, simplex (length d) s /\ length s <= k /\ c = code (length d) s) /\
  (forall s t, simplex (length d) s -> simplex (length d) t -> length s = length t ->
     before l (code (length d) s) (code (length d) t) -> row_lt phi (code (length d) s) (code (length d) t)).

(** The matrix [D] with reversed row and column indices. *)
Definition rev_matrix {K : coeffT} {C : Type} (D : C -> vec K C) : reverse C -> vec K (reverse C) :=
  fun c r => D (unrev c) (unrev r).
(** [L] contains every simplex with at most [k] vertices. *)
Definition covers_simplices (n k : nat) (L : list N) : Prop :=
  forall s, simplex n s -> length s <= k -> In (code n s) L.

(** [dim] gives the simplex with code [c] its dimension. *)
Definition simplex_dim (n : nat) (dim : N -> Z) : Prop :=
  forall s, simplex n s -> dim (code n s) = (Z.of_nat (length s) - 1)%Z.
(** [l] lists the codes of the simplices with at most [k] vertices once each, in any order. *)
Definition lists_simplices (n k : nat) (l : list N) : Prop :=
  NoDup l /\ forall c, In c l <-> exists s, simplex n s /\ length s <= k /\ c = code n s.

(** Pascal's triangle *)
Fixpoint binomial (n k : nat) : nat :=
  match n, k with
  | _, O => 1
  | O, S _ => 0
  | S n', S k' => binomial n' k' + binomial n' k
  end.
