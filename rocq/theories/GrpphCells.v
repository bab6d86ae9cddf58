(** The cells of grounded path homology (phlite_grpph/src/coboundary.rs 16-40) and their derived order. *)
From Verif Require Import Base.
Set Implicit Arguments.

(** coboundary.rs 35-40: [PathHom2Cell]; vertices ([u16]) are [nat] *)
Inductive cell2 : Type :=
| DoubleEdge (a b : nat)
| DirectedTriangle (a b c : nat)
| LongSquare (a b c d : nat).

(** coboundary.rs 16-21: [PathHomCell] *)
Inductive cell : Type :=
| Node (s : nat)
| Edge (s t : nat)
| TwoCell (c : cell2).

(** coboundary.rs 24-30: [dimension] *)
Definition cell_dimension (c : cell) : nat :=
  match c with Node _ => 0 | Edge _ _ => 1 | TwoCell _ => 2 end.

(** lexicographic order on lists *)
Fixpoint list_cmp (l m : list nat) : comparison :=
  match l, m with
  | [], [] => Eq
  | [], _ => Lt
  | _, [] => Gt
  | x :: l, y :: m => match Nat.compare x y with Eq => list_cmp l m | c => c end
  end.
Lemma list_cmp_eq l : forall m, list_cmp l m = Eq <-> l = m.
Proof.
  induction l as [|x l IH]; intros [|y m]; simpl; try (split; [discriminate|congruence]); [tauto|].
  destruct (Nat.compare_spec x y) as [->|H|H]; [rewrite IH; split; congruence|split; [discriminate|intros [= -> _]; lia]..].
Qed.
Lemma list_cmp_opp l : forall m, list_cmp m l = CompOpp (list_cmp l m).
Proof.
  induction l as [|x l IH]; intros [|y m]; simpl; auto.
  rewrite (Nat.compare_antisym x y). destruct (Nat.compare x y); simpl; auto.
Qed.
Lemma list_cmp_trans l : forall m p, list_cmp l m = Lt -> list_cmp m p = Lt -> list_cmp l p = Lt.
Proof.
  induction l as [|x l IH]; intros [|y m] [|w p]; simpl; try discriminate; auto.
  destruct (Nat.compare_spec x y) as [->|H|H]; try discriminate.
  - destruct (Nat.compare y w); try discriminate; auto. apply IH.
  - intros _. destruct (Nat.compare_spec y w) as [->|H'|H']; try discriminate; intros _.
    + apply Nat.compare_lt_iff in H. now rewrite H.
    + assert (x < w) by lia. apply Nat.compare_lt_iff in H0. now rewrite H0.
Qed.

(** coboundary.rs 16 and 35: [#[derive(PartialOrd, Ord)]] compares the position of the variant, then the
    fields from left to right; the variant [TwoCell] continues inside its field. *)
Definition cell_key (c : cell) : list nat :=
  match c with
  | Node s => [0; s]
  | Edge s t => [1; s; t]
  | TwoCell (DoubleEdge a b) => [2; 0; a; b]
  | TwoCell (DirectedTriangle a b c) => [2; 1; a; b; c]
  | TwoCell (LongSquare a b c d) => [2; 2; a; b; c; d]
  end.
Lemma cell_key_inj c d : cell_key c = cell_key d -> c = d.
Proof.
  destruct c as [s|s t|[a b|a b c|a b c d']], d as [s'|s' t'|[a1 b1|a1 b1 c1|a1 b1 c1 d1]]; simpl; intros E; congruence.
Qed.
Definition cell_cmp (c d : cell) : comparison := list_cmp (cell_key c) (cell_key d).
Lemma cell_cmp_eq c d : cell_cmp c d = Eq <-> c = d.
Proof. unfold cell_cmp. rewrite list_cmp_eq. split; [apply cell_key_inj|congruence]. Qed.
Lemma cell_cmp_opp c d : cell_cmp d c = CompOpp (cell_cmp c d).
Proof. apply list_cmp_opp. Qed.
Lemma cell_cmp_trans c d e : cell_cmp c d = Lt -> cell_cmp d e = Lt -> cell_cmp c e = Lt.
Proof. apply list_cmp_trans. Qed.
Definition cell_ord : ordT := @OrdT cell cell_cmp cell_cmp_eq cell_cmp_opp cell_cmp_trans.
