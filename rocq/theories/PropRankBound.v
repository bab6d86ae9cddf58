(** C59, second part: with weights that may be zero the circuit rank is an upper bound. *)
From Coq Require Import Permutation Lia Relations.
From Verif Require Import Base Fields FieldsFacts Spec LinAlg Columns GrpphCells Grpph SpecGrpph SpecPath SpecWeighted PathBasis PathBetti Weighted WeightedRun ShortestPaths PropWeighted PropGrpphExamples BettiUnique.
Set Implicit Arguments.

Section Bound.
  Context {K : coeffT} {F : ordT}.
  Add Field KFBound : (F_field K).
  Variables (time : nat -> nat -> option F) (n : nat) (z : F) (E : list (nat * nat)).
  Notation B1 := (boundary_1 (K:=K) time n).
  Lemma B1_sum t {A} (L : list A) (w : A -> option K) (c : A -> edge_chain (K:=K)) : (forall x, In x L -> B1 t (c x)) -> B1 t (fun x y => vsum L (fun i => fmul (w i) (c i x y))).
  Proof.
    induction L as [|i L IH]; intros H; [apply B1_zero|]. eapply B1_ext; [|exact (B1_lin (w i) (IH (fun j Hj => H j (or_intror Hj))) (H i (or_introl eq_refl)))]. intros x y. cbn [vsum]. ring.
  Qed.
  (** a spanning family is at least as long as a basis *)
  Lemma betti_1_spanned s t k m (Z : nat -> edge_chain (K:=K)) : path_betti_1 (K:=K) time n z E s t k ->
    (forall e, cycle_1 time n z E s e -> exists a : nat -> option K, B1 t (fun x y => fsub (e x y) (vsum (seq 0 m) (fun i => fmul (a i) (Z i x y))))) -> k <= m.
  Proof.
    intros (I & bars & Y & H1 & <- & H3 & _ & H5) Hs. destruct (Nat.le_gt_cases (length bars) m) as [|Hgt]; auto. exfalso.
    destruct (@list_choice I (nat -> option K) (fun b a => B1 t (fun x y => fsub (Y b x y) (vsum (seq 0 m) (fun i => fmul (a i) (Z i x y))))) (fun _ => f0) bars) as (A & HA); [intros b Hb; apply Hs; auto|].
    destruct (@kernel_nontrivial K nat I (seq 0 m) (fun i b => A b i) bars H1) as (x & (u & Hu & Hx) & Hk); [now rewrite seq_length|]. apply Hx. apply (H5 x); auto.
    eapply B1_ext; [|exact (@B1_sum t I bars x _ HA)]. intros a b. cbv beta.
    transitivity (fsub (vsum bars (fun i => fmul (x i) (Y i a b))) (vsum bars (fun i => fmul (x i) (vsum (seq 0 m) (fun j => fmul (A i j) (Z j a b)))))).
    - assert (Hm : forall (f g : I -> option K), vsum bars (fun i => fsub (f i) (g i)) = fsub (vsum bars f) (vsum bars g)) by (intros f g; clear; induction bars as [|c l IH]; cbn [vsum]; [ring|rewrite IH; ring]). rewrite <- Hm. apply vsum_ext. intros i _. ring.
    - assert (E0 : vsum bars (fun i => fmul (x i) (vsum (seq 0 m) (fun j => fmul (A i j) (Z j a b)))) = f0); [|rewrite E0; ring].
      transitivity (vsum (seq 0 m) (fun j => fmul (Z j a b) (vsum bars (fun i => fmul (A i j) (x i))))).
      + transitivity (vsum bars (fun i => vsum (seq 0 m) (fun j => fmul (x i) (fmul (A i j) (Z j a b))))); [apply vsum_ext; intros i _; now rewrite vsum_mul_l|]. rewrite vsum_swap. apply vsum_ext. intros j _. rewrite <- vsum_mul_l. apply vsum_ext. intros i _. ring.
      + apply vsum_0. intros j Hj. rewrite (Hk j Hj). ring.
  Qed.
End Bound.

Theorem C59_circuit_rank_bound :
  forall (HI : heaps) (F : ordT) (add : F -> F -> F) (z inf : F) (n : nat) (edges : list (nat * nat * F)) (sp : list (nat * nat * F) -> nat -> nat -> option F),
  (N.of_nat n < 65536)%N -> weighted_digraph n z edges ->
  nonneg_add add z -> no_overflow add z inf edges -> shortest_path_library add z n sp ->
  exists N : nat, forall fuel, N < fuel ->
  exists ess0 ess1 prs1,
    grpph_py HI fuel z inf sp n edges = Ok ([ess0; ess1], [[]; prs1]) /\
    forall E R, NoDup E -> (forall e, In e E <-> In e (map fst edges)) -> component_representatives n (map fst edges) R ->
      length ess1 + length prs1 + n <= length E + length R.
Proof.
  intros HI F add z inf n edges sp Hn Hw Hadd Hov Hlib. destruct (filtration_exists inf Hw Hlib) as (time & Hspf).
  destruct (C58_births_and_deaths HI Hn Hw Hadd Hov Hlib) as (N1 & HN1).
  destruct (weighted_run HI Hn Hw Hadd Hov Hlib Hspf) as (N & HN). exists (N + N1). intros fuel Hfuel. destruct (HN fuel ltac:(lia)) as (ess0 & ess1 & prs1 & reps & H1 & _ & H2 & H3 & H4 & _).
  exists ess0, ess1, prs1. split; auto. intros E R HE HEi HR.
  assert (Hsame : forall R', component_representatives n (map fst edges) R' -> length ess0 = length R').
  { destruct (HN1 fuel ltac:(lia)) as (ess0' & ess1' & prs1' & H1' & _ & _ & H5). rewrite H1 in H1'. injection H1' as <- <- <-. exact H5. }
  assert (HEb : forall s t, In (s, t) E -> s < n /\ t < n) by (intros s t Hi; apply HEi in Hi; exact (run_ground Hw _ _ Hi)).
  destruct (@circuit_basis Z2_coeff n E HE HEb) as (R' & k & Z & HR' & Hk & C1 & C2 & C3).
  assert (HR2 : component_representatives n (map fst edges) R').
  { assert (Hwc : forall x y, weakly_connected E x y <-> weakly_connected (map fst edges) x y).
    { intros x y. unfold weakly_connected. split; induction 1; try (apply Relation_Operators.rst_step; now apply HEi); try apply Relation_Operators.rst_refl; try (now apply Relation_Operators.rst_sym); eapply Relation_Operators.rst_trans; eauto. }
    destruct HR' as (A & B & C & D). repeat split; auto; [|intros r r' I1 I2 I3; apply D; auto; now apply Hwc]. intros v Hv. destruct (C v Hv) as (r & I1 & I2). exists r. split; auto. now apply Hwc. }
  pose proof (filtration_digraph Hadd Hw Hov Hspf) as HG.
  assert (Hb : path_betti_1 (K:=Z2_coeff) time n z (map fst edges) z z (length ess1 + length prs1)).
  { apply (H4 z z (ole_refl z)). rewrite (@alive_start F z); auto; [intros b d Hin; destruct (H3 _ _ Hin) as (-> & Hd & _); auto|intros b Hin; apply H2; apply in_app_iff; auto|intros b d Hin; apply (H3 _ _ Hin)]. }
  assert (Hle : length ess1 + length prs1 <= k); [|pose proof (Hsame _ HR); pose proof (Hsame _ HR2); lia].
  apply (@betti_1_spanned Z2_coeff F time n z (map fst edges) z z _ k Z Hb). intros e [He Hc].
  destruct (@chain_surj Z2_coeff F time n z inf (map fst edges) HG (run_ground Hw) add (finite_edge_of inf edges) Hadd (run_arc (inf:=inf) Hw) Hspf z e He) as (c & Hin & Hbd & Hv).
  destruct (C2 c) as (a & Ha); [intros x y Hne; apply HEi; now apply Hin|intros v; rewrite <- Hv; auto|]. exists a. eapply B1_ext; [|exact Hbd]. intros x y. cbv beta. now rewrite Ha.
Qed.
Print Assumptions C59_circuit_rank_bound.

(** two edges of weight zero in opposite directions: a cycle that is born and dies at zero, so the bound is strict *)
Example C59_bound_ex :
  let edges := [(0, 1, 0); (1, 0, 0); (1, 2, 5); (2, 1, 3)] : list (nat * nat * nat_ord) in
  weighted_digraph (F:=nat_ord) 3 0 edges /\
  grpph_py (F:=nat_ord) list_heaps 60 0 1000 (fun e => bellman (F:=nat_ord) Nat.add 0 e 3) 3 edges = Ok ([[0]; []], [[]; [(0, 5)]]).
Proof.
  cbv zeta. split; [intros u v w H; simpl in H; repeat (destruct H as [[= <- <- <-]|H]; [repeat split; auto; try lia; apply ole_nat; lia|]); destruct H|]. vm_compute. reflexivity.
Qed.
