(** Relabelling the vertices of a filtered digraph does not change its Betti numbers. *)
From Verif Require Import Base Fields FieldsFacts Spec LinAlg GrpphCells SpecGrpph SpecPath SpecWeighted GrpphColumns PathBasis PathBetti Weighted.
From Coq Require Import Ring Field Permutation Lia FinFun.
Set Implicit Arguments.

(** [sg] and [ta] are inverse to each other and respect [0 .. n-1] *)
Definition inverse_pair (n : nat) (sg ta : nat -> nat) : Prop :=
  (forall x, ta (sg x) = x) /\ (forall x, sg (ta x) = x) /\ (forall x, sg x < n <-> x < n).
Lemma inverse_sym n sg ta : inverse_pair n sg ta -> inverse_pair n ta sg.
Proof. intros (H1 & H2 & H3). split; auto. split; auto. intros x. rewrite <- (H3 (ta x)), H2. tauto. Qed.
Lemma inverse_eqb n sg ta x y : inverse_pair n sg ta -> (sg x =? sg y) = (x =? y).
Proof. intros (H1 & _). destruct (Nat.eqb_spec x y) as [->|Hn]; [apply Nat.eqb_refl|]. apply Nat.eqb_neq. intros E. apply Hn. rewrite <- (H1 x), E. apply H1. Qed.
Lemma inverse_perm n sg ta : inverse_pair n sg ta -> Permutation (map sg (seq 0 n)) (seq 0 n).
Proof.
  intros (H1 & H2 & H3). apply NoDup_Permutation.
  - apply Injective_map_NoDup; [|apply seq_NoDup]. intros x y E. rewrite <- (H1 x), E. apply H1.
  - apply seq_NoDup.
  - intros x. rewrite in_map_iff, in_seq. split.
    + intros (y & <- & Hy). apply in_seq in Hy. split; [lia|]. apply H3. lia.
    + intros Hx. exists (ta x). split; auto. apply in_seq. split; [lia|]. apply H3. rewrite H2. lia.
Qed.

Section Chains.
  Context {K : coeffT}.
  Add Field KFRl : (F_field K).
  Variables (n : nat) (sg ta : nat -> nat).
  Hypothesis Hi : inverse_pair n sg ta.
  Lemma reindex (f : nat -> option K) : vsum (seq 0 n) (fun x => f (sg x)) = vsum (seq 0 n) f.
  Proof. rewrite <- (vsum_map (seq 0 n) sg f). apply vsum_perm. eapply inverse_perm; eauto. Qed.
  Lemma edge_bdry_relabel (e : edge_chain (K:=K)) v : edge_bdry n (fun x y => e (sg x) (sg y)) v = edge_bdry n e (sg v).
  Proof.
    unfold edge_bdry. rewrite <- (reindex (fun x => vsum (seq 0 n) (fun y => fmul (e x y) (fsub (delta (y =? sg v)) (delta (x =? sg v)))))).
    apply vsum_ext. intros x _. rewrite <- (reindex (fun y => fmul (e (sg x) y) (fsub (delta (y =? sg v)) (delta (sg x =? sg v))))).
    apply vsum_ext. intros y _. now rewrite !(inverse_eqb _ _ Hi).
  Qed.
  Lemma path_boundary_relabel a b c x y : path_boundary (K:=K) (sg a) (sg b) (sg c) (sg x) (sg y) = path_boundary a b c x y.
  Proof. unfold path_boundary. now rewrite !(inverse_eqb _ _ Hi). Qed.
  Lemma path_bdry_relabel (u : path_chain (K:=K)) x y : path_bdry n (fun a b c => u (sg a) (sg b) (sg c)) x y = path_bdry n u (sg x) (sg y).
  Proof.
    unfold path_bdry. rewrite <- (reindex (fun a => vsum (seq 0 n) (fun b => vsum (seq 0 n) (fun c => fmul (u a b c) (path_boundary a b c (sg x) (sg y)))))).
    apply vsum_ext. intros a _. rewrite <- (reindex (fun b => vsum (seq 0 n) (fun c => fmul (u (sg a) b c) (path_boundary (sg a) b c (sg x) (sg y))))).
    apply vsum_ext. intros b _. rewrite <- (reindex (fun c => fmul (u (sg a) (sg b) c) (path_boundary (sg a) (sg b) c (sg x) (sg y)))).
    apply vsum_ext. intros c _. now rewrite path_boundary_relabel.
  Qed.
  Context {F : ordT} (time time' : nat -> nat -> option F) (z : F) (E E' : list (nat * nat)).
  Hypothesis Ht : forall x y, time x y = time' (sg x) (sg y).
  Hypothesis HE : forall x y, In (x, y) E <-> In (sg x, sg y) E'.
  Lemma edge_at_relabel t x y : edge_at time t x y <-> edge_at time' t (sg x) (sg y).
  Proof. unfold edge_at. now rewrite Ht. Qed.
  Lemma edges_at_relabel t (e : edge_chain (K:=K)) : edges_at time' z E' t e -> edges_at time z E t (fun x y => e (sg x) (sg y)).
  Proof. intros H x y Hn. apply H in Hn. unfold grounded_edge_at in *. rewrite HE, edge_at_relabel. exact Hn. Qed.
  Lemma nodes_at_relabel t (p : node_chain (K:=K)) : nodes_at n z t p -> nodes_at n z t (fun v => p (sg v)).
  Proof. intros H v Hn. apply H in Hn. destruct (id Hi) as (_ & _ & H3). now rewrite H3 in Hn. Qed.
  Lemma cycle_1_relabel t (e : edge_chain (K:=K)) : cycle_1 time' n z E' t e -> cycle_1 time n z E t (fun x y => e (sg x) (sg y)).
  Proof. intros [H1 H2]. split; [now apply edges_at_relabel|]. intros v. rewrite edge_bdry_relabel. apply H2. Qed.
  Lemma boundary_1_relabel t (e : edge_chain (K:=K)) : boundary_1 time' n t e -> boundary_1 time n t (fun x y => e (sg x) (sg y)).
  Proof.
    intros (u & [H1 H2] & H3). exists (fun a b c => u (sg a) (sg b) (sg c)). split; [split|].
    - intros a b c Hn. rewrite !edge_at_relabel. now apply H1.
    - intros x y Hn. rewrite path_bdry_relabel in Hn. apply edge_at_relabel. now apply H2.
    - intros x y. rewrite path_bdry_relabel. apply H3.
  Qed.
  Lemma boundary_0_relabel t (p : node_chain (K:=K)) : boundary_0 time' n z E' t p -> boundary_0 time n z E t (fun v => p (sg v)).
  Proof. intros (e & H1 & H2). exists (fun x y => e (sg x) (sg y)). split; [now apply edges_at_relabel|]. intros v. rewrite edge_bdry_relabel. apply H2. Qed.
End Chains.

Section Betti.
  Context {K : coeffT} {F : ordT}.
  Add Field KFRl2 : (F_field K).
  Variables (n : nat) (sg ta : nat -> nat) (time time' : nat -> nat -> option F) (z : F) (E E' : list (nat * nat)).
  Hypothesis Hi : inverse_pair n sg ta.
  Hypothesis Ht : forall x y, time x y = time' (sg x) (sg y).
  Hypothesis HE : forall x y, In (x, y) E <-> In (sg x, sg y) E'.
  Let Hi' : inverse_pair n ta sg := inverse_sym Hi.
  Lemma Ht' : forall x y, time' x y = time (ta x) (ta y).
  Proof. intros x y. rewrite Ht. destruct (id Hi) as (_ & H & _). now rewrite !H. Qed.
  Lemma HE' : forall x y, In (x, y) E' <-> In (ta x, ta y) E.
  Proof. intros x y. rewrite HE. destruct (id Hi) as (_ & H & _). now rewrite !H. Qed.
  Lemma betti_1_relabel s t k : path_betti_1 (K:=K) time n z E s t k -> path_betti_1 (K:=K) time' n z E' s t k.
  Proof.
    intros (I & bars & Z & H1 & H2 & H3 & H4 & H5). exists I, bars, (fun b x y => Z b (ta x) (ta y)). split; auto. split; auto. split; [|split].
    - intros b Hb. apply (@cycle_1_relabel K n ta sg Hi' F time' time z E' E Ht' HE' s (Z b)). auto.
    - intros e He. destruct (H4 (fun x y => e (sg x) (sg y))) as (a & Ha); [now apply (@cycle_1_relabel K n sg ta Hi F time time' z E E' Ht HE s e)|].
      exists a. eapply B1_ext; [|exact (@boundary_1_relabel K n ta sg Hi' F time' time Ht' t _ Ha)]. intros x y. cbv beta. destruct (id Hi) as (_ & H & _). now rewrite !H.
    - intros a Ha. apply H5. eapply B1_ext; [|exact (@boundary_1_relabel K n sg ta Hi F time time' Ht t _ Ha)]. intros x y. cbv beta. destruct (id Hi) as (H & _). apply vsum_ext. intros b _. now rewrite !H.
  Qed.
  Lemma betti_0_relabel s t k : path_betti_0 (K:=K) time n z E s t k -> path_betti_0 (K:=K) time' n z E' s t k.
  Proof.
    assert (Bext : forall time z E t (p q : node_chain (K:=K)), (forall v, q v = p v) -> boundary_0 time n z E t p -> boundary_0 (F:=F) time n z E t q).
    { intros ti z0 E0 t0 p q Hpq (e & A & B). exists e. split; auto. intros v. now rewrite Hpq. }
    intros (I & bars & Z & H1 & H2 & H3 & H4 & H5). exists I, bars, (fun b v => Z b (ta v)). split; auto. split; auto. split; [|split].
    - intros b Hb. apply (@nodes_at_relabel K n ta sg Hi' F z s (Z b)). auto.
    - intros p Hp. destruct (H4 (fun v => p (sg v))) as (a & Ha); [now apply (@nodes_at_relabel K n sg ta Hi F z s p)|].
      exists a. eapply Bext; [|exact (@boundary_0_relabel K n ta sg Hi' F time' time z E' E Ht' HE' t _ Ha)]. intros v. cbv beta. destruct (id Hi) as (_ & H & _). now rewrite H.
    - intros a Ha. apply H5. eapply Bext; [|exact (@boundary_0_relabel K n sg ta Hi F time time' z E E' Ht HE t _ Ha)]. intros v. cbv beta. destruct (id Hi) as (H & _). apply vsum_ext. intros b _. now rewrite !H.
  Qed.
End Betti.

(** an injection of [0 .. n-1] into itself extends to a bijection of the numbers *)
Lemma extend_relabelling n sg : (forall x, x < n -> sg x < n) -> (forall x y, x < n -> y < n -> sg x = sg y -> x = y) ->
  exists sg' ta, inverse_pair n sg' ta /\ forall x, x < n -> sg' x = sg x.
Proof.
  intros H1 H2. assert (Hb : bFun n sg) by exact H1. assert (Hs : bSurjective n sg) by (apply (bInjective_bSurjective Hb); exact H2).
  destruct (bSurjective_bBijective Hb Hs) as (ta & Hta & Hinv).
  exists (fun x => if x <? n then sg x else x), (fun x => if x <? n then ta x else x). split; [|intros x Hx; destruct (Nat.ltb_spec x n); [auto|lia]].
  split; [|split]; intros x.
  - destruct (Nat.ltb_spec x n) as [Hx|Hx]; [|destruct (Nat.ltb_spec x n); [lia|auto]]. pose proof (H1 x Hx). destruct (Nat.ltb_spec (sg x) n); [|lia]. now apply Hinv.
  - destruct (Nat.ltb_spec x n) as [Hx|Hx]; [|destruct (Nat.ltb_spec x n); [lia|auto]]. pose proof (Hta x Hx). destruct (Nat.ltb_spec (ta x) n); [|lia]. now apply Hinv.
  - destruct (Nat.ltb_spec x n) as [Hx|Hx]; [|lia]. specialize (H1 x Hx). lia.
Qed.
