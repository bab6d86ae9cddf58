(** Property theorem C66: the exact diagram of the directed cycle. *)
From Verif Require Import Base Fields FieldsFacts Spec LinAlg Columns Grpph SpecGrpph SpecPath SpecWeighted PathBasis PathBetti Weighted WeightedRun ShortestPaths PropWeighted PropGrpphExamples CycleDeath.
From Coq Require Import Permutation Lia.
Set Implicit Arguments.

(** ** C66: the cycle dies when paths of ceil(N/2) edges have appeared *)
Theorem C66_cycle_death :
  forall (HI : heaps) (F : ordT) (add : F -> F -> F) (z one inf : F) (sp : list (nat * nat * F) -> nat -> nat -> option F) (N : nat),
  (N.of_nat N < 65536)%N -> olt z one -> olt one inf -> nonneg_add add z -> shortest_path_library add z N sp ->
  1 < N -> olt (total add z one (N - 1)) inf ->
  exists M : nat, forall fuel, M < fuel ->
  exists rep,
    grpph_py HI fuel z inf sp N (cycle_digraph one N) = Ok ([[z]; []], [[]; [(z, total add z one ((N + 1) / 2))]]) /\
    grpph_with_involution_py HI fuel z inf sp N (cycle_digraph one N) = Ok ([[z]; []], [[]; [(z, total add z one ((N + 1) / 2))]], [rep]) /\
    Permutation rep (map fst (cycle_digraph one N)).
Proof.
  intros HI F add z one inf sp N HN Hone Hfin Hadd Hlib HN1 Hi.
  assert (Hov : no_overflow add z inf (cycle_digraph one N)) by (apply cycle_no_overflow; auto).
  destruct (C63_cycle_digraph HI HN Hone Hfin Hadd Hlib HN1 Hov) as (M1 & H1).
  assert (Hw : weighted_digraph N z (cycle_digraph one N)).
  { intros u v w Hin. apply cycle_in in Hin. destruct Hin as (? & -> & ->). repeat split; auto using olt_le. apply Nat.mod_upper_bound. lia. }
  destruct (filtration_exists inf Hw Hlib) as (time & Hspf). destruct (weighted_run HI HN Hw Hadd Hov Hlib Hspf) as (M2 & H2).
  exists (M1 + M2). intros fuel Hfuel. destruct (H1 fuel ltac:(lia)) as (death & rep & E1 & E2 & Hp). destruct (H2 fuel ltac:(lia)) as (e0 & e1 & p1 & reps & _ & E3 & _ & _ & _ & bars & cs & Hb & Hr & _).
  rewrite E2 in E3. injection E3 as <- <- <- <-.
  apply Permutation_sym, Permutation_length_1_inv in Hb. subst bars. inversion Hr as [|? ? ? ? HR _]; subst. destruct HR as (_ & _ & B & NB). cbn [fst snd] in B, NB.
  assert (Es : forall x y, edges_sum (K:=Z2_coeff) rep x y = edges_sum (map fst (cycle_digraph one N)) x y) by (intros x y; apply vsum_perm; exact Hp).
  assert (Ed : death = total add z one ((N + 1) / 2)).
  { change ((N + 1) / 2) with (half N). destruct (ole_total death (total add z one (half N))) as [Hle|Hle]; apply ole_lt_eq in Hle; destruct Hle as [Hlt|]; auto.
    - exfalso. eapply (cycle_not_boundary (K:=Z2_coeff) HN1 Hone Hfin Hadd Hspf Hlt). eapply B1_ext; [|exact B]. exact Es.
    - exfalso. apply (NB _ Hlt). eapply B1_ext; [|apply (cycle_is_boundary (K:=Z2_coeff) HN1 Hone Hfin Hadd Hspf), ole_refl]. intros x y. symmetry. apply Es. }
  subst death. exists rep. auto.
Qed.
Print Assumptions C66_cycle_death.

(** the hypotheses are met: five vertices, weights 1, infinity 1000 *)
Example C66_ex : olt (total (F:=nat_ord) Nat.add 0 1 (5 - 1)) (1000 : nat_ord) /\ total (F:=nat_ord) Nat.add 0 1 ((5 + 1) / 2) = 3 /\
  exists rep, grpph_with_involution_py (F:=nat_ord) list_heaps 80 0 1000 (fun edges => bellman (F:=nat_ord) Nat.add 0 edges 5) 5 (cycle_digraph (F:=nat_ord) 1 5) = Ok ([[0]; []], [[]; [(0, 3)]], [rep]).
Proof. split; [reflexivity|]. split; [reflexivity|]. eexists. vm_compute. reflexivity. Qed.
