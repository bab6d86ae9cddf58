(** Specification for C90: partial matchings between two lists of bars, and the bottleneck distance (nothing here refers to the code). *)
From Coq Require Import List Permutation ZArith.
Import ListNotations.
Set Implicit Arguments.

(** Some members of [l] are matched one to one with some members of [l'], matched ones being related by [R]; those of [l] left over satisfy [P] and those of [l'] left
    over satisfy [Q].  Lists are compared up to order, repetitions counting. *)
Definition matching {X Y} (R : X -> Y -> Prop) (P : X -> Prop) (Q : Y -> Prop) (l : list X) (l' : list Y) : Prop :=
  exists (M : list (X * Y)) (U : list X) (V : list Y),
    Permutation l (map fst M ++ U) /\ Permutation l' (map snd M ++ V) /\
    (forall x y, In (x, y) M -> R x y) /\ (forall x, In x U -> P x) /\ (forall y, In y V -> Q y).

(** The bars (birth, death) of [l] and [l'] are at bottleneck distance at most [delta]: matched bars have ends within [delta] of each other, and bars left over are no
    longer than [2 * delta] (their distance to the diagonal is at most [delta]). *)
Definition bottleneck (delta : Z) (l l' : list (Z * Z)) : Prop :=
  matching (fun p p' => Z.abs (fst p - fst p') <= delta /\ Z.abs (snd p - snd p') <= delta)%Z
    (fun p => snd p - fst p <= 2 * delta)%Z (fun p => snd p - fst p <= 2 * delta)%Z l l'.
(** The bars without end: all are matched, with births within [delta]. *)
Definition bottleneck_births (delta : Z) (l l' : list Z) : Prop :=
  matching (fun b b' => Z.abs (b - b') <= delta)%Z (fun _ => False) (fun _ => False) l l'.
(** The same for lists from which bars no longer than [cut] may have been left out. *)
Definition bottleneck_cut (delta cut : Z) (l l' : list (Z * Z)) : Prop :=
  matching (fun p p' => Z.abs (fst p - fst p') <= delta /\ Z.abs (snd p - snd p') <= delta)%Z
    (fun p => snd p - fst p <= 2 * delta + cut)%Z (fun p => snd p - fst p <= 2 * delta + cut)%Z l l'.
