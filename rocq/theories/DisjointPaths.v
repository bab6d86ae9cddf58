(** Path homology of a filtered digraph whose vertices fall into two parts with no edge between them. *)
From Coq Require Import Lia.
From Verif Require Import Base Fields FieldsFacts Spec LinAlg GrpphCells SpecGrpph SpecPath PathBasis PathBetti Weighted SplitBetti.
Set Implicit Arguments.

Section Side.
  Context {K : coeffT} {F : ordT}.
  Add Field KFSide : (F_field K).
  (** [time1], [E1]: the edges of the filtration and of the ground digraph inside the part [p] *)
  Variables (n : nat) (z : F) (time time1 : nat -> nat -> option F) (E E1 : list (nat * nat)) (p : nat -> bool).
  Hypothesis Ht : forall x y f, time x y = Some f -> p x = p y.
  Hypothesis HE : forall x y, In (x, y) E -> p x = p y.
  Hypothesis Ht1 : forall x y, time1 x y = if p x then time x y else None.
  Hypothesis HE1 : forall x y, In (x, y) E1 <-> In (x, y) E /\ p x = true.

  Lemma edge_at_side t x y : edge_at time1 t x y <-> edge_at time t x y /\ p x = true.
  Proof.
    unfold edge_at. split.
    - intros (f & Hf & Hle). rewrite Ht1 in Hf. destruct (p x); [|discriminate]. split; eauto.
    - intros [(f & Hf & Hle) Hp]. exists f. rewrite Ht1, Hp. auto.
  Qed.
  Lemma grounded_side t x y : grounded_edge_at time1 z E1 t x y <-> grounded_edge_at time z E t x y /\ p x = true.
  Proof.
    unfold grounded_edge_at. rewrite HE1, edge_at_side. destruct (p x); split.
    - intros [[[H _] H']|[H [H' _]]]; (split; [|reflexivity]); [left; auto|right]. split; auto.
    - intros [[[H H']|[H H']] _]; [left; auto|right]. split; [tauto|auto].
    - intros [[[_ H] _]|[_ [_ H]]]; discriminate.
    - intros [_ H]; discriminate.
  Qed.
  Lemma grounded_same t x y : grounded_edge_at time z E t x y -> p x = p y.
  Proof. intros [[H _]|[_ (f & H & _)]]; eauto. Qed.
  Lemma edge_at_same t x y : edge_at time t x y -> p x = p y.
  Proof. intros (f & H & _). eauto. Qed.

  Definition side1 (e : edge_chain (K:=K)) : edge_chain (K:=K) := fun x y => if p x then e x y else f0.
  Definition side2 (u : path_chain (K:=K)) : path_chain (K:=K) := fun a b c => if p a then u a b c else f0.
  Lemma vsum_if {A} (b : bool) (l : list A) (f : A -> option K) : vsum l (fun a => if b then f a else f0) = if b then vsum l f else f0.
  Proof. destruct b; auto. apply vsum_0. auto. Qed.
  Lemma edge_bdry_side t e v : edges_at time z E t e -> edge_bdry n (side1 e) v = if p v then edge_bdry n e v else f0.
  Proof.
    intros He. unfold edge_bdry. rewrite <- vsum_if. apply vsum_ext. intros x _. rewrite <- vsum_if. apply vsum_ext. intros y _. unfold side1.
    destruct (fscalar_dec (e x y)) as [Ez|Hn]; [rewrite Ez; destruct (p x), (p v); ring|]. pose proof (grounded_same (He x y Hn)) as Hxy.
    destruct (Nat.eqb_spec y v) as [->|Hy]; [rewrite Hxy; destruct (p v); [reflexivity|ring]|]. destruct (Nat.eqb_spec x v) as [->|Hx]; [destruct (p v); [reflexivity|ring]|].
    cbn [delta]. destruct (p x), (p v); ring.
  Qed.
  Lemma cycle_side t e : cycle_1 time n z E t e -> cycle_1 time1 n z E1 t (side1 e).
  Proof.
    intros [H1 H2]. split.
    - intros x y Hn. unfold side1 in Hn. destruct (p x) eqn:Ep; [|congruence]. apply grounded_side. split; auto.
    - intros v. rewrite (edge_bdry_side v H1), H2. now destruct (p v).
  Qed.
  Lemma cycle_side_back t (e : edge_chain (K:=K)) : cycle_1 time1 n z E1 t e -> cycle_1 time n z E t e /\ forall x y, p x = false -> e x y = f0.
  Proof.
    intros [H1 H2]. split; [split; auto; intros x y Hn; exact (proj1 (proj1 (grounded_side t x y) (H1 x y Hn)))|].
    intros x y Hp. destruct (fscalar_dec (e x y)) as [|Hn]; auto. apply H1, grounded_side in Hn. destruct Hn. congruence.
  Qed.
  Lemma path_bdry_side t u x y : (forall a b c, u a b c <> f0 -> edge_at time t a b /\ edge_at time t b c) -> path_bdry n (side2 u) x y = if p x then path_bdry n u x y else f0.
  Proof.
    intros Hu. unfold path_bdry. rewrite <- vsum_if. apply vsum_ext. intros a _. rewrite <- vsum_if. apply vsum_ext. intros b _. rewrite <- vsum_if. apply vsum_ext. intros c _. unfold side2.
    destruct (fscalar_dec (u a b c)) as [Ez|Hn]; [rewrite Ez; destruct (p a), (p x); ring|]. destruct (Hu a b c Hn) as [Hab Hbc]. apply edge_at_same in Hab, Hbc.
    unfold path_boundary. destruct (Nat.eqb_spec a x) as [->|Ha]; [destruct (p x); [reflexivity|ring]|]. destruct (Nat.eqb_spec b x) as [->|Hb]; [rewrite Hab; destruct (p x); [reflexivity|ring]|].
    cbn [andb delta]. destruct (a =? c), (p a), (p x); ring.
  Qed.
  Lemma invariant_side t u : invariant_2_paths time n t u -> invariant_2_paths time1 n t (side2 u).
  Proof.
    intros [H1 H2]. split.
    - intros a b c Hn. unfold side2 in Hn. destruct (p a) eqn:Ep; [|congruence]. destruct (H1 _ _ _ Hn) as [A B]. rewrite !edge_at_side. pose proof (edge_at_same A). repeat split; auto; congruence.
    - intros x y Hn. rewrite (path_bdry_side u x y H1) in Hn. destruct (p x) eqn:Ep; [|congruence]. apply edge_at_side. split; auto.
  Qed.
  Lemma invariant_side_back t (u : path_chain (K:=K)) : invariant_2_paths time1 n t u -> invariant_2_paths time n t u.
  Proof.
    intros [H1 H2]. split.
    - intros a b c Hn. destruct (H1 _ _ _ Hn) as [A B]. apply edge_at_side in A, B. tauto.
    - intros x y Hn. apply H2, edge_at_side in Hn. tauto.
  Qed.
  Lemma boundary_side t e : boundary_1 time n t e -> boundary_1 time1 n t (side1 e).
  Proof. intros (u & Hu & He). exists (side2 u). split; [now apply invariant_side|]. intros x y. unfold side1. rewrite (path_bdry_side u x y (proj1 Hu)). now rewrite He. Qed.
  Lemma boundary_side_back t (e : edge_chain (K:=K)) : boundary_1 time1 n t e -> boundary_1 time n t e.
  Proof. intros (u & Hu & He). exists u. split; auto. now apply invariant_side_back. Qed.
End Side.

Section Union.
  Context {K : coeffT} {F : ordT}.
  Add Field KFUnion : (F_field K).
  Variables (n : nat) (z : F) (time time1 time2 : nat -> nat -> option F) (E E1 E2 : list (nat * nat)) (p : nat -> bool).
  Hypothesis Ht : forall x y f, time x y = Some f -> p x = p y.
  Hypothesis HE : forall x y, In (x, y) E -> p x = p y.
  Hypothesis Ht1 : forall x y, time1 x y = if p x then time x y else None.
  Hypothesis HE1 : forall x y, In (x, y) E1 <-> In (x, y) E /\ p x = true.
  Hypothesis Ht2 : forall x y, time2 x y = if negb (p x) then time x y else None.
  Hypothesis HE2 : forall x y, In (x, y) E2 <-> In (x, y) E /\ negb (p x) = true.
  Let Ht' : forall x y f, time x y = Some f -> negb (p x) = negb (p y).
  Proof. intros x y f H. f_equal. eauto. Qed.
  Let HE' : forall x y, In (x, y) E -> negb (p x) = negb (p y).
  Proof. intros x y H. f_equal. eauto. Qed.

  Lemma betti_1_union s t k1 k2 : path_betti_1 (K:=K) time1 n z E1 s t k1 -> path_betti_1 (K:=K) time2 n z E2 s t k2 -> path_betti_1 (K:=K) time n z E s t (k1 + k2).
  Proof.
    set (cur := fun (e : nat * nat -> option K) x y => e (x, y)).
    assert (Hto : forall ti E0 k, path_betti_1 (K:=K) ti n z E0 s t k -> gbetti (fun e => cycle_1 ti n z E0 s (cur e)) (fun e => boundary_1 ti n t (cur e)) k).
    { intros ti E0 k (I & bars & Z & H1 & H2 & H3 & H4 & H5). exists I, bars, (fun b q => Z b (fst q) (snd q)). split; auto. split; auto. split; [exact H3|]. split; [|exact H5].
      intros e He. destruct (H4 (cur e) He) as (a & Ha). exists a. exact Ha. }
    intros G1 G2. apply Hto in G1, G2.
    assert (G : gbetti (fun e => cycle_1 time n z E s (cur e)) (fun e => boundary_1 time n t (cur e)) (k1 + k2)).
    { apply (@gbetti_sum K (nat * nat) _ _ (fun e => cycle_1 time1 n z E1 s (cur e)) (fun e => boundary_1 time1 n t (cur e)) (fun e => cycle_1 time2 n z E2 s (cur e)) (fun e => boundary_1 time2 n t (cur e)) (fun q => p (fst q))); auto.
      - intros e He. split; [exact (@cycle_side K F n z time time1 E E1 p Ht HE Ht1 HE1 s _ He)|exact (@cycle_side K F n z time time2 E E2 (fun x => negb (p x)) Ht' HE' Ht2 HE2 s _ He)].
      - intros e He. destruct (@cycle_side_back K F n z time time1 E E1 p Ht1 HE1 s _ He) as [A B]. split; auto. intros [x y] Hx. exact (B x y Hx).
      - intros e He. destruct (@cycle_side_back K F n z time time2 E E2 (fun x => negb (p x)) Ht2 HE2 s _ He) as [A B]. split; auto. intros [x y] Hx. apply (B x y). cbn [fst] in Hx. now rewrite Hx.
      - intros e He. split; [exact (@boundary_side K F n time time1 p Ht Ht1 t _ He)|exact (@boundary_side K F n time time2 (fun x => negb (p x)) Ht' Ht2 t _ He)].
      - intros e1 e2 A B. apply (@boundary_side_back K F n time time1 p Ht1) in A. apply (@boundary_side_back K F n time time2 (fun x => negb (p x)) Ht2) in B. eapply B1_ext; [|exact (B1_lin f1 A B)]. intros x y. unfold cur. cbv beta. ring.
      - intros e e' H. apply B1_ext. intros x y. apply H.
      - intros e e' H. apply B1_ext. intros x y. apply H.
      - intros e e' H. apply B1_ext. intros x y. apply H. }
    destruct G as (I & bars & Z & H1 & H2 & H3 & H4 & H5). exists I, bars, (fun b x y => Z b (x, y)). split; auto. split; auto. split; [exact H3|]. split; [|exact H5].
    intros e He. destruct (H4 (fun q => e (fst q) (snd q)) He) as (a & Ha). exists a. exact Ha.
  Qed.
End Union.
