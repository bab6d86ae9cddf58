(** The independent specification: formal linear combinations, leading
    terms, matrix products, triangular/reduced matrices and the intrinsic
    persistence pairing.  Nothing here mentions heaps, iterators or the
    reduction algorithms. *)
From Verif Require Import Base Fields.
Set Implicit Arguments.

(** A vector assigns a scalar to each row; [None] is zero. *)
Definition vec (K : coeffT) (R : Type) : Type := R -> option K.

(** Total coefficient of row [r] in a formal sum given by its list of
    terms (repetitions allowed). *)
Fixpoint coef {K : coeffT} {R : ordT} (l : list (K * R)) (r : R) : option K :=
  match l with
  | [] => f0
  | (c, x) :: t => if oeqb x r then fadd (Some c) (coef t r) else coef t r
  end.

(** Sum of [f b] over a list. *)
Fixpoint vsum {K : coeffT} {A : Type} (l : list A) (f : A -> option K) : option K :=
  match l with
  | [] => f0
  | a :: t => fadd (f a) (vsum t f)
  end.

(** The image of the chain [sum_{b in B} x b . b] under the matrix whose
    column [b] is the vector [D b]. *)
Definition lincomb {K : coeffT} {C R : Type} (B : list C) (x : vec K C) (D : C -> vec K R) : vec K R :=
  fun r => vsum B (fun b => fmul (x b) (D b r)).

(** Rows ordered by filtration value, ties broken by the order on rows. *)
Section RowOrd.
  Context {F R : ordT} (phi : R -> F).
  Definition row_cmp (r s : R) : comparison :=
    match cmp (phi r) (phi s) with Eq => cmp r s | c => c end.
  Lemma row_cmp_lex r s : row_cmp r s = @lex_cmp F R (phi r, r) (phi s, s).
  Proof. reflexivity. Qed.
  Lemma row_cmp_eq r s : row_cmp r s = Eq <-> r = s.
  Proof.
    rewrite row_cmp_lex, lex_cmp_eq. split; [congruence|intros ->; auto].
  Qed.
  Lemma row_cmp_opp r s : row_cmp s r = CompOpp (row_cmp r s).
  Proof. rewrite !row_cmp_lex. apply lex_cmp_opp. Qed.
  Lemma row_cmp_trans r s t : row_cmp r s = Lt -> row_cmp s t = Lt -> row_cmp r t = Lt.
  Proof. rewrite !row_cmp_lex. apply lex_cmp_trans. Qed.
  Definition row_ord : ordT := @OrdT R row_cmp row_cmp_eq row_cmp_opp row_cmp_trans.
End RowOrd.

(** [row_lt phi r s]: row [r] comes strictly before row [s]. *)
Definition row_lt {F R : ordT} (phi : R -> F) (r s : R) : Prop :=
  olt (phi r) (phi s) \/ (phi r = phi s /\ olt r s).
Definition row_le {F R : ordT} (phi : R -> F) (r s : R) : Prop :=
  row_lt phi r s \/ r = s.

(** Row [i] is the leading (largest non-zero) row of the vector [v]. *)
Definition leading {K : coeffT} {F R : ordT} (phi : R -> F) (v : vec K R) (i : R) : Prop :=
  v i <> f0 /\ forall r, row_lt phi i r -> v r = f0.

Definition vzero {K : coeffT} {R : Type} (v : vec K R) : Prop := forall r, v r = f0.

(** The chain [x] over the ordered basis [B] has [j] as its last element:
    non-zero coefficient at [j], zero at everything after [j]. *)
Definition ends_at {K : coeffT} {C : Type} (B : list C) (x : vec K C) (j : C) : Prop :=
  exists B1 B2, B = B1 ++ j :: B2 /\ x j <> f0 /\ forall b, In b B2 -> x b = f0.

(** Upper triangular with non-zero diagonal. *)
Definition triangular {K : coeffT} {C : Type} (B : list C) (V : C -> vec K C) : Prop :=
  forall j, In j B -> ends_at B (V j) j.

(** No two non-zero columns have the same leading row. *)
Definition reduced {K : coeffT} {F C R : ordT} (phi : R -> F) (B : list C) (M : C -> vec K R) : Prop :=
  forall j k i, In j B -> In k B -> leading phi (M j) i -> leading phi (M k) i -> j = k.

(** The intrinsic persistence pairing of the matrix [D] with ordered column
    basis [B]: no chain ending at [j] is a cycle, and [i] is the least row
    that leads the image of some chain ending at [j]. *)
Definition is_pair {K : coeffT} {F C R : ordT} (phi : R -> F) (B : list C) (D : C -> vec K R)
    (i : R) (j : C) : Prop :=
  (forall x, ends_at B x j -> ~ vzero (lincomb B x D)) /\
  (exists x, ends_at B x j /\ leading phi (lincomb B x D) i) /\
  (forall x i', ends_at B x j -> leading phi (lincomb B x D) i' -> row_le phi i i').

(** [j] is a positive (cycle-creating) basis element. *)
Definition is_positive {K : coeffT} {C R : Type} (B : list C) (D : C -> vec K R) (j : C) : Prop :=
  exists x, ends_at B x j /\ vzero (lincomb B x D).

(** Essential: creates a cycle, and is not the birth of any pair. *)
Definition is_essential {K : coeffT} {F C : ordT} (phi : C -> F) (B : list C) (D : C -> vec K C)
    (j : C) : Prop :=
  In j B /\ is_positive B D j /\ forall k, In k B -> ~ is_pair phi B D j k.

(** [x] occurs before [y] in the list [l]. *)
Definition before {C : Type} (l : list C) (x y : C) : Prop := exists A B E, l = A ++ x :: B ++ y :: E.

(** [D] maps the span of [B] to itself and squares to zero. *)
Definition complex {K : coeffT} {C : Type} (B : list C) (D : C -> vec K C) : Prop :=
  (forall c r, In c B -> D c r <> f0 -> In r B) /\
  (forall c, In c B -> vzero (lincomb B (D c) D)).

(** [D] is homogeneous of degree [e] for the grading (dimension) [g]. *)
Definition graded {K : coeffT} {C : Type} (g : C -> Z) (e : Z) (B : list C) (D : C -> vec K C) : Prop :=
  forall c r, In c B -> D c r <> f0 -> g r = (g c + e)%Z.

(** Within each grade the basis is listed in row order. *)
Definition graded_order {F C : ordT} (phi : C -> F) (g : C -> Z) (B : list C) : Prop :=
  forall x y, before B x y -> g x = g y -> row_lt phi x y.

(** The anti-transpose of a square matrix: rows and columns exchanged, both orders reversed. *)
Definition anti_transpose {K : coeffT} {C : Type} (D : C -> vec K C) : reverse C -> vec K (reverse C) :=
  fun r c => D (unrev c) (unrev r).
Definition rev_filtration {C F : Type} (phi : C -> F) : reverse C -> reverse F := fun c => Reverse (phi (unrev c)).
Definition rev_basis {C : Type} (l : list C) : list (reverse C) := map (@Reverse C) (rev l).
