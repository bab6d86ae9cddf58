(** Reversing every edge of a filtered digraph does not change its path homology. *)
From Verif Require Import Base Fields FieldsFacts Spec LinAlg GrpphCells SpecGrpph SpecPath SpecWeighted GrpphColumns PathBasis PathBetti Weighted WeightedRun.
From Coq Require Import Ring Field Permutation Lia.
Set Implicit Arguments.

Section Chains.
  Context {K : coeffT}.
  Add Field KFRev : (F_field K).
  Variable n : nat.
  Lemma vsum_minus (l : list nat) (f : nat -> option K) : fsub f0 (vsum l f) = vsum l (fun a => fsub f0 (f a)).
  Proof. transitivity (fsub (vsum l (fun _ => f0)) (vsum l f)); [f_equal; symmetry; now apply vsum_0|]. symmetry. apply vsum_sub. Qed.
  Lemma edge_bdry_rev (e : edge_chain (K:=K)) v : edge_bdry n (fun x y => e y x) v = fsub f0 (edge_bdry n e v).
  Proof.
    unfold edge_bdry. rewrite (vsum_swap (seq 0 n) (seq 0 n)).
    rewrite vsum_minus. apply vsum_ext. intros x _. rewrite vsum_minus. apply vsum_ext. intros y _. ring.
  Qed.
  Lemma path_boundary_rev a b c x y : path_boundary (K:=K) c b a y x = path_boundary a b c x y.
  Proof.
    unfold path_boundary. rewrite (andb_comm (b =? y)), (andb_comm (c =? y) (a =? x)), (andb_comm (c =? y) (b =? x)), (Nat.eqb_sym c a).
    destruct (a =? c); ring.
  Qed.
  Lemma path_bdry_rev (u : path_chain (K:=K)) x y : path_bdry n (fun a b c => u c b a) x y = path_bdry n u y x.
  Proof.
    unfold path_bdry.
    transitivity (vsum (seq 0 n) (fun a => vsum (seq 0 n) (fun c => vsum (seq 0 n) (fun b => fmul (u c b a) (path_boundary a b c x y))))); [apply vsum_ext; intros a _; apply vsum_swap|].
    rewrite vsum_swap. apply vsum_ext. intros c _. rewrite vsum_swap. apply vsum_ext. intros b _. apply vsum_ext. intros a _. now rewrite path_boundary_rev.
  Qed.
  Context {F : ordT} (time time' : nat -> nat -> option F) (z : F) (E E' : list (nat * nat)).
  Hypothesis Ht : forall x y, time x y = time' y x.
  Hypothesis HE : forall x y, In (x, y) E <-> In (y, x) E'.
  Lemma edge_at_rev t x y : edge_at time t x y <-> edge_at time' t y x.
  Proof. unfold edge_at. now rewrite Ht. Qed.
  Lemma edges_at_rev t (e : edge_chain (K:=K)) : edges_at time' z E' t e -> edges_at time z E t (fun x y => e y x).
  Proof. intros H x y Hn. apply H in Hn. unfold grounded_edge_at in *. rewrite HE, edge_at_rev. exact Hn. Qed.
  Lemma cycle_1_rev t (e : edge_chain (K:=K)) : cycle_1 time' n z E' t e -> cycle_1 time n z E t (fun x y => e y x).
  Proof. intros [H1 H2]. split; [now apply edges_at_rev|]. intros v. rewrite edge_bdry_rev, H2. ring. Qed.
  Lemma boundary_1_rev t (e : edge_chain (K:=K)) : boundary_1 time' n t e -> boundary_1 time n t (fun x y => e y x).
  Proof.
    intros (u & [H1 H2] & H3). exists (fun a b c => u c b a). split; [split|].
    - intros a b c Hn. rewrite !edge_at_rev. apply and_comm. now apply H1.
    - intros x y Hn. rewrite path_bdry_rev in Hn. apply edge_at_rev. now apply H2.
    - intros x y. rewrite path_bdry_rev. apply H3.
  Qed.
  Lemma boundary_0_rev t (p : node_chain (K:=K)) : boundary_0 time' n z E' t p -> boundary_0 time n z E t p.
  Proof.
    intros (e & H1 & H2). exists (fun x y => fsub f0 (e y x)). split.
    - intros x y Hn. apply (edges_at_rev H1). intros E0. apply Hn. cbv beta in E0. rewrite E0. ring.
    - intros v. rewrite H2. change (fun x y => fsub f0 (e y x)) with (fun x y => (fun a b => fsub f0 (e a b)) y x). rewrite (edge_bdry_rev (fun a b => fsub f0 (e a b))).
      unfold edge_bdry.
      rewrite vsum_minus. apply vsum_ext. intros x _. rewrite vsum_minus. apply vsum_ext. intros y _. ring.
  Qed.
End Chains.

Section Betti.
  Context {K : coeffT} {F : ordT}.
  Variables (n : nat) (time time' : nat -> nat -> option F) (z : F) (E E' : list (nat * nat)).
  Hypothesis Ht : forall x y, time x y = time' y x.
  Hypothesis HE : forall x y, In (x, y) E <-> In (y, x) E'.
  Let Ht' : forall x y, time' x y = time y x.
  Proof. intros x y. now rewrite Ht. Qed.
  Let HE' : forall x y, In (x, y) E' <-> In (y, x) E.
  Proof. intros x y. now rewrite HE. Qed.
  Lemma betti_1_rev s t k : path_betti_1 (K:=K) time n z E s t k -> path_betti_1 (K:=K) time' n z E' s t k.
  Proof.
    intros (I & bars & Z & H1 & H2 & H3 & H4 & H5). exists I, bars, (fun b x y => Z b y x). split; auto. split; auto. split; [|split].
    - intros b Hb. apply (@cycle_1_rev K n F time' time z E' E Ht' HE' s (Z b)). auto.
    - intros e He. destruct (H4 (fun x y => e y x)) as (a & Ha); [now apply (@cycle_1_rev K n F time time' z E E' Ht HE s e)|].
      exists a. exact (@boundary_1_rev K n F time' time Ht' t _ Ha).
    - intros a Ha. apply H5. exact (@boundary_1_rev K n F time time' Ht t _ Ha).
  Qed.
  Lemma betti_0_rev s t k : path_betti_0 (K:=K) time n z E s t k -> path_betti_0 (K:=K) time' n z E' s t k.
  Proof.
    intros (I & bars & Z & H1 & H2 & H3 & H4 & H5). exists I, bars, Z. split; auto. split; auto. split; [|split]; auto.
    - intros p Hp. destruct (H4 p Hp) as (a & Ha). exists a. exact (@boundary_0_rev K n F time' time z E' E Ht' HE' t _ Ha).
    - intros a Ha. apply H5. exact (@boundary_0_rev K n F time time' z E E' Ht HE t _ Ha).
  Qed.
End Betti.

(** ** Reversing walks *)
Section Walks.
  Context {F : ordT} (add : F -> F -> F) (z : F) (arc arc' : nat -> nat -> F -> Prop).
  Hypothesis Hc : forall a b, add a b = add b a.
  Hypothesis Ha : forall a b c, add a (add b c) = add (add a b) c.
  Hypothesis Hz : forall w, add z w = w.
  Hypothesis Harc : forall u v w, arc u v w -> arc' v u w.
  Lemma walk_cons x u y d w : arc' x u w -> walk add z arc' u y d -> walk add z arc' x y (add w d).
  Proof.
    intros Hx. induction 1 as [|v y d w' H IH Hw'].
    - rewrite Hc, <- (Hc w z), (Hc w z), Hz. rewrite <- (Hz w). apply walk_snoc with (u := x); [constructor|exact Hx].
    - rewrite Ha. eapply walk_snoc; eauto.
  Qed.
  Lemma walk_rev x y d : walk add z arc x y d -> walk add z arc' y x d.
  Proof. induction 1 as [|u y d w H IH Hw]; [constructor|]. rewrite Hc. eapply walk_cons; eauto. Qed.
End Walks.
Section Times.
  Context {F : ordT} (add : F -> F -> F) (z : F) (arc arc' : nat -> nat -> F -> Prop).
  Hypothesis Hc : forall a b, add a b = add b a.
  Hypothesis Ha : forall a b c, add a (add b c) = add (add a b) c.
  Hypothesis Hz : forall w, add z w = w.
  Hypothesis Harc : forall u v w, arc u v w <-> arc' v u w.
  Lemma walk_rev_iff x y d : walk add z arc x y d <-> walk add z arc' y x d.
  Proof. split; apply walk_rev; auto; intros u v w; apply Harc. Qed.
  Lemma shortest_rev x y d : shortest add z arc x y d <-> shortest add z arc' y x d.
  Proof. unfold shortest. rewrite walk_rev_iff. split; intros [H1 H2]; split; auto; intros d' Hd; apply H2; now apply walk_rev_iff. Qed.
  Lemma time_rev time : shortest_path_filtration add z arc time -> shortest_path_filtration add z arc' (fun x y => time y x).
  Proof.
    intros (A1 & A2 & A3). split; [intros x; apply A1|]. split; [intros x y d E; apply A2 in E; now apply shortest_rev|].
    intros x y Hne E d Hd. apply walk_rev_iff in Hd. apply (A3 y x) in Hd; auto.
  Qed.
  Lemma time_rev_eq time time' : shortest_path_filtration add z arc time -> shortest_path_filtration add z arc' time' -> forall x y, time x y = time' y x.
  Proof.
    intros (A1 & A2 & A3) (B1 & B2 & B3) x y. destruct (Nat.eq_dec x y) as [->|Hne]; [now rewrite A1, B1|].
    destruct (time x y) as [d|] eqn:E.
    - apply A2, shortest_rev in E. destruct (time' y x) as [d'|] eqn:E'; [f_equal; exact (shortest_unique E (B2 _ _ _ E'))|exfalso; exact (B3 _ _ (not_eq_sym Hne) E' d (proj1 E))].
    - destruct (time' y x) as [d'|] eqn:E'; auto. apply B2, shortest_rev in E'. exfalso. exact (A3 _ _ Hne E d' (proj1 E')).
  Qed.
End Times.
