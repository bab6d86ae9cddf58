(** Specification of persistent homology over a field: the filtered chain complex, cycles and boundaries at a time,
    bases of the image of H_n(K_s) -> H_n(K_t), and the bars of a diagram that are alive.  Nothing here refers to
    the model of the code. *)
From Verif Require Import Base Fields Spec.
Set Implicit Arguments.

Section PH.
  Context {K : coeffT} {F C : ordT}.
  (** cells [l], their times [phi] and degrees [g]; the differential [D] has degree [e] (-1 for homology) *)
  Variables (phi : C -> F) (g : C -> Z) (e : Z) (l : list C) (D : C -> vec K C).

  (** the differential of a chain *)
  Definition bdry (z : vec K C) : vec K C := lincomb l z D.
  (** [z] is a chain of degree [n] on the cells present at time [t] *)
  Definition chain_at (n : Z) (t : F) (z : vec K C) : Prop :=
    forall c, z c <> f0 -> In c l /\ g c = n /\ ole (phi c) t.
  Definition cycle_at (n : Z) (t : F) (z : vec K C) : Prop := chain_at n t z /\ vzero (bdry z).
  (** [z] is the differential of a chain present at time [t]; such a chain has degree [n - e] *)
  Definition boundary_at (n : Z) (t : F) (z : vec K C) : Prop :=
    exists w, chain_at (n - e) t w /\ forall r, bdry w r = z r.

  (** The classes of the cycles [Z b], [b] in [bars], form a basis of the image of H_n(K_s) in H_n(K_t): they are
      distinct indices of n-cycles at time [s], every n-cycle at time [s] differs from a combination of them by a
      boundary at time [t], and no combination is a boundary at time [t] unless all its coefficients are zero. *)
  Definition persistent_basis {I : ordT} (n : Z) (s t : F) (bars : list I) (Z : I -> vec K C) : Prop :=
    NoDup bars /\
    (forall b, In b bars -> cycle_at n s (Z b)) /\
    (forall z, cycle_at n s z -> exists a : vec K I, boundary_at n t (fun r => fsub (z r) (lincomb bars a Z r))) /\
    (forall a : vec K I, boundary_at n t (lincomb bars a Z) -> forall b, In b bars -> a b = f0).

  (** the dimension of the image of H_n(K_s) in H_n(K_t) *)
  Definition persistent_betti (n : Z) (s t : F) (k : nat) : Prop :=
    exists (I : ordT) (bars : list I) (Z : I -> vec K C), persistent_basis n s t bars Z /\ length bars = k.
End PH.

(** The bars of degree [n] born by [s] and not dead at [t], named by the cells that create them, in a diagram with
    unpaired cells [E] and (birth, death) pairs [P]. *)
Definition alive {F C : ordT} (phi : C -> F) (g : C -> Z) (E : list C) (P : list (C * C)) (n : Z) (s t : F) : list C :=
  filter (fun c => (g c =? n)%Z && oleb (phi c) s) E ++
  map fst (filter (fun p => (g (fst p) =? n)%Z && oleb (phi (fst p)) s && oltb t (phi (snd p))) P).
