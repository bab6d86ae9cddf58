(** Property theorem C63: the assertions of phlite_grpph/examples/example.py for every number of vertices, and runs that
    meet the hypotheses of C57 - C63. *)
From Verif Require Import Base Fields FieldsFacts Spec LinAlg Columns ColumnsFacts Matrices Reduction GrpphCells Grpph SpecGrpph SpecPath SpecWeighted Persistence RipsPersistence GrpphFacts GrpphReduce PropGrpph GrpphRun PropGrpphRun GrpphColumns GrpphComplex PathBasis PathBetti Weighted ShortestPaths PropPathHomology PropReps WeightedRun PropWeighted.
From Coq Require Import Ring Field Permutation Lia.
Set Implicit Arguments.

(** examples/example.py 8: the complete digraph *)
Definition complete_digraph {F : ordT} (one : F) (N : nat) : list (nat * nat * F) :=
  flat_map (fun i => map (fun j => (i, j, one)) (filter (fun j => negb (i =? j)) (seq 0 N))) (seq 0 N).
(** examples/example.py 22 and 27: the directed cycle *)
Definition cycle_digraph {F : ordT} (one : F) (N : nat) : list (nat * nat * F) :=
  map (fun i => (i, (i + 1) mod N, one)) (seq 0 N).

Lemma complete_in {F : ordT} (one : F) N i j w : In (i, j, w) (complete_digraph one N) <-> i < N /\ j < N /\ i <> j /\ w = one.
Proof.
  unfold complete_digraph. rewrite in_flat_map. split.
  - intros (i' & Hi & H). apply in_map_iff in H. destruct H as (j' & [= <- <- <-] & H). apply filter_In in H. destruct H as [Hj Hn]. apply in_seq in Hi, Hj.
    destruct (Nat.eqb_spec i' j'); [discriminate|]. repeat split; auto; lia.
  - intros (Hi & Hj & Hn & ->). exists i. split; [apply in_seq; lia|]. apply in_map_iff. exists j. split; auto. apply filter_In. split; [apply in_seq; lia|]. destruct (Nat.eqb_spec i j); [contradiction|reflexivity].
Qed.
Lemma cycle_in {F : ordT} (one : F) N i j w : In (i, j, w) (cycle_digraph one N) <-> i < N /\ j = (i + 1) mod N /\ w = one.
Proof.
  unfold cycle_digraph. rewrite in_map_iff. split.
  - intros (k & [= <- <- <-] & H). apply in_seq in H. repeat split; auto. lia.
  - intros (Hi & -> & ->). exists i. split; auto. apply in_seq. lia.
Qed.

Lemma length_remove N i : forall m, length (filter (fun j => negb (i =? j)) (seq m N)) = if (m <=? i) && (i <? m + N) then N - 1 else N.
Proof.
  induction N as [|N IH]; intros m; cbn [seq filter].
  - destruct (Nat.leb_spec m i), (Nat.ltb_spec i (m + 0)); cbn [andb length]; auto.
  - destruct (Nat.eqb_spec i m) as [->|Hne]; cbn [negb length]; rewrite IH;
      repeat match goal with |- context [?a <=? ?b] => destruct (Nat.leb_spec a b) | |- context [?a <? ?b] => destruct (Nat.ltb_spec a b) end; cbn [andb]; lia.
Qed.
Lemma complete_length {F : ordT} (one : F) N : length (complete_digraph one N) = N * (N - 1).
Proof.
  unfold complete_digraph.
  assert (H : forall l, (forall i, In i l -> i < N) -> length (flat_map (fun i => map (fun j => (i, j, one)) (filter (fun j => negb (i =? j)) (seq 0 N))) l) = length l * (N - 1)).
  { induction l as [|i l IH]; intros Hl; cbn [flat_map length]; auto. rewrite app_length, map_length, length_remove, IH by (intros; apply Hl; now right).
    pose proof (Hl i (or_introl eq_refl)). destruct (Nat.leb_spec 0 i), (Nat.ltb_spec i (0 + N)); cbn [andb Nat.mul]; lia. }
  rewrite H by (intros i Hi; apply in_seq in Hi; lia). now rewrite seq_length.
Qed.
Lemma complete_nodup {F : ordT} (one : F) N : NoDup (map fst (complete_digraph one N)).
Proof.
  unfold complete_digraph. generalize (seq_NoDup N 0). generalize (seq 0 N) at 1 3. induction l as [|i l IH]; intros Hn; [constructor|]. inversion Hn as [|? ? Hi Hn']; subst.
  cbn [flat_map]. rewrite map_app. apply NoDup_app_intro; [|now apply IH|].
  - rewrite map_map. cbn [fst]. apply FinFun.Injective_map_NoDup; [intros a b [= <-]; auto|]. apply NoDup_filter, seq_NoDup.
  - intros [a b] H1 H2. rewrite map_map in H1. apply in_map_iff in H1. destruct H1 as (j & [= <- <-] & _). apply in_map_iff in H2. destruct H2 as ([[a c] w] & [= -> ->] & H2).
    apply in_flat_map in H2. destruct H2 as (i' & Hi' & H2). apply in_map_iff in H2. destruct H2 as (j' & [= -> -> ->] & _). contradiction.
Qed.
Lemma cycle_nodup {F : ordT} (one : F) N : NoDup (map fst (cycle_digraph one N)).
Proof. unfold cycle_digraph. rewrite map_map. cbn [fst]. apply FinFun.Injective_map_NoDup; [intros a b [= <-]; auto|apply seq_NoDup]. Qed.

Lemma repeat_all {A} (x : A) (l : list A) : (forall y, In y l -> y = x) -> l = repeat x (length l).
Proof. induction l as [|y l IH]; intros H; cbn [length repeat]; auto. f_equal; [apply H; now left|apply IH; intros; apply H; now right]. Qed.

Section Scalars.
  Context {K : coeffT}.
  Add Field KFEx : (F_field K).
  Lemma ex_mul_sub (a b c : option K) : fmul a (fsub b c) = fsub (fmul a b) (fmul a c). Proof. ring. Qed.
  Lemma ex_mul_1 (a : option K) : fmul a f1 = a. Proof. ring. Qed.
  Lemma ex_mul_0 (a : option K) : fmul a f0 = f0. Proof. ring. Qed.
  Lemma ex_0_mul (a : option K) : fmul f0 a = f0. Proof. ring. Qed.
  Lemma ex_sub_eq (a b : option K) : fsub a b = f0 -> a = b. Proof. intros H. transitivity (fadd (fsub a b) b); [ring|]. rewrite H. ring. Qed.
End Scalars.

Section Examples.
  Variables (HI : heaps) (F : ordT) (add : F -> F -> F) (z one inf : F) (sp : list (nat * nat * F) -> nat -> nat -> option F) (N : nat).
  Hypothesis HN : (N.of_nat N < 65536)%N.
  Hypothesis Hone : olt z one.
  Hypothesis Hfin : olt one inf.
  Hypothesis Hadd : nonneg_add add z.
  Hypothesis Hlib : shortest_path_library add z N sp.

  Lemma complete_edge u v : u < N -> v < N -> u <> v -> finite_edge_of inf (complete_digraph one N) u v one.
  Proof. intros Hu Hv Hne. split; auto. now apply complete_in. Qed.
  Lemma complete_arc u v : u < N -> v < N -> u <> v -> walk add z (finite_edge_of inf (complete_digraph one N)) u v one.
  Proof.
    intros Hu Hv Hne. assert (H : walk add z (finite_edge_of inf (complete_digraph one N)) u v (add z one)) by (econstructor; [constructor|now apply complete_edge]).
    rewrite (proj1 Hadd one) in H. exact H.
  Qed.
  Lemma complete_walk x y d : walk add z (finite_edge_of inf (complete_digraph one N)) x y d -> (x = y /\ d = z) \/ ole one d.
  Proof.
    intros H. assert (Hz : ole z d /\ ((x = y /\ d = z) \/ ole one d)); [|tauto]. induction H as [|u y d w H [IH1 IH2] [Ha _]]; [split; [apply ole_refl|auto]|].
    apply complete_in in Ha. destruct Ha as (_ & _ & _ & ->). destruct (proj2 Hadd d one IH1 (olt_le Hone)) as [H1 H2]. split; [eapply ole_trans; eauto|auto].
  Qed.
  Lemma complete_shortest x y d : shortest add z (finite_edge_of inf (complete_digraph one N)) x y d -> (x = y /\ d = z) \/ d = one.
  Proof.
    intros [Hw Hmin]. destruct (Nat.eq_dec x y) as [<-|Hne].
    - left. split; auto. apply ole_antisym; [apply Hmin; constructor|]. destruct (complete_walk Hw) as [[_ ->]|H]; [apply ole_refl|eapply ole_trans; [apply olt_le, Hone|exact H]].
    - right. assert (Hxy : x < N /\ y < N).
      { clear Hmin. induction Hw as [|u y d w Hw IH [Ha _]]; [congruence|]. apply complete_in in Ha. destruct Ha as (Hu & Hv & _). destruct (Nat.eq_dec x u) as [<-|Hn]; auto. destruct (IH Hn); auto. }
      destruct Hxy as [Hx Hy]. apply ole_antisym.
      + apply Hmin. now apply complete_arc.
      + destruct (complete_walk Hw) as [[E _]|H]; [contradiction|exact H].
  Qed.
  Lemma complete_no_overflow : no_overflow add z inf (complete_digraph one N).
  Proof.
    intros x y d Hd. apply complete_shortest in Hd. destruct Hd as [[_ ->]| ->]; auto. eapply olt_trans; eauto.
  Qed.

  (** ** C63: the complete digraph *)
  Lemma complete_run : 0 < N ->
    exists M : nat, forall fuel, M < fuel ->
    grpph_py HI fuel z inf sp N (complete_digraph one N) = Ok ([[z]; []], [[]; repeat (z, one) (N * (N - 1) + 1 - N)]).
  Proof.
    intros HN0. pose proof complete_no_overflow as Hov. set (edges := complete_digraph one N) in *.
    assert (Hw : weighted_digraph N z edges) by (intros u v w Hi; apply complete_in in Hi; destruct Hi as (? & ? & ? & ->); auto using olt_le).
    assert (Hpos : positive_weights z edges) by (intros u v w Hi; apply complete_in in Hi; destruct Hi as (? & ? & ? & ->); auto).
    assert (Harc : forall u v, u < N -> v < N -> u <> v -> walk add z (finite_edge_of inf edges) u v one).
    { apply complete_arc. }
    assert (Hroot : forall v, v < N -> exists d, walk add z (finite_edge_of inf edges) 0 v d).
    { intros v Hv. destruct (Nat.eq_dec 0 v) as [<-|Hne]; [exists z; constructor|exists one; auto]. }
    destruct (C60_essential_cycles HI HN Hw Hadd Hov Hlib HN0 Hroot) as (M1 & H1).
    destruct (C59_circuit_rank HI HN Hw Hpos Hadd Hov Hlib) as (M2 & H2).
    destruct (filtration_exists inf Hw Hlib) as (time & Hspf). destruct (weighted_run HI HN Hw Hadd Hov Hlib Hspf) as (M4 & H4).
    exists (M1 + M2 + M4). intros fuel Hfuel. destruct (H1 fuel ltac:(lia)) as (ess1 & prs1 & E1 & K1). destruct (H2 fuel ltac:(lia)) as (e0 & e1 & p1 & E2 & K2).
    destruct (H4 fuel ltac:(lia)) as (f0' & f1' & r1 & reps' & E4 & _ & _ & K5 & _).
    rewrite E1 in E2. injection E2 as <- <- <-. rewrite E1 in E4. injection E4 as <- <- <-.
    assert (E3 : ess1 = []).
    { rewrite (K1 []); auto; [constructor|]. intros x y. split; [intros []|]. intros [Hi Hno]. apply in_map_iff in Hi. destruct Hi as ([[a b] w] & [= -> ->] & Hi). apply complete_in in Hi. destruct Hi as (Hx & Hy & Hne & _).
      destruct Hno as [|Hno]; [contradiction|]. exact (Hno one (Harc _ _ Hx Hy Hne)). }
    subst ess1. rewrite E1. do 4 f_equal.
    pose proof (K2 (map fst edges) [0] (complete_nodup one N) ltac:(tauto) (rooted_components Hw HN0 Hroot)) as H. rewrite map_length in H. unfold edges in H. rewrite complete_length in H. cbn [length] in H.
    replace (N * (N - 1) + 1 - N) with (length prs1) by lia. apply repeat_all. intros [b d] Hin. destruct (K5 b d Hin) as (-> & Hlt & x & y & Ht).
    destruct Hspf as (_ & Hs & _). apply Hs, complete_shortest in Ht. destruct Ht as [[_ ->]| ->]; auto. apply olt_not_le in Hlt. exfalso. apply Hlt, ole_refl.
  Qed.

  (** a cycle of the directed cycle runs all the way round *)
  Lemma cycle_all (rep : list (nat * nat)) : 1 < N -> NoDup rep -> rep <> [] -> (forall x y, In (x, y) rep -> In (x, y) (map fst (cycle_digraph one N))) ->
    (forall v, edge_bdry (K:=Z2_coeff) N (edges_sum rep) v = f0) -> Permutation rep (map fst (cycle_digraph one N)).
  Proof.
    intros HN1 Hnd Hne Hin Hcyc. set (e := edges_sum (K:=Z2_coeff) rep) in *.
    assert (Hi : forall x y, In (x, y) (map fst (cycle_digraph one N)) <-> x < N /\ y = (x + 1) mod N).
    { intros x y. split; [intros H; apply in_map_iff in H; destruct H as ([[a b] w] & [= -> ->] & H); apply cycle_in in H; tauto|]. intros [Hx ->]. apply in_map_iff. exists (x, (x + 1) mod N, one). split; auto. now apply cycle_in. }
    assert (He1 : forall x y, In (x, y) rep -> e x y <> f0).
    { intros x y Hxy. unfold e, edges_sum. rewrite (@vsum_single Z2_coeff (nat * nat) rep _ (x, y)); auto.
      - cbn [fst snd]. rewrite !Nat.eqb_refl. discriminate.
      - intros [a c] _ Hd'. cbn [fst snd]. destruct (Nat.eqb_spec a x), (Nat.eqb_spec c y); subst; try congruence; reflexivity. }
    assert (He0 : forall x y, e x y <> f0 -> In (x, y) rep).
    { intros x y H. destruct (in_dec ord_eq_dec ((x, y) : edge_ord) rep) as [|Hno]; auto. exfalso. apply H. unfold e, edges_sum. apply vsum_0. intros [a b] Hab. cbn [fst snd].
      destruct (Nat.eqb_spec a x), (Nat.eqb_spec b y); subst; try reflexivity. contradiction. }
    assert (Hstep : forall i, S i < N -> e i (S i) = e (S i) ((S i + 1) mod N)).
    { intros i Hi1. specialize (Hcyc (S i)). unfold edge_bdry in Hcyc.
      rewrite (@vsum_ext Z2_coeff nat (seq 0 N) _ (fun x => fmul (e x ((x + 1) mod N)) (fsub (delta ((x + 1) mod N =? S i)) (delta (x =? S i))))) in Hcyc.
      - assert (Hsplit : vsum (seq 0 N) (fun x => fmul (e x ((x + 1) mod N)) (fsub (delta ((x + 1) mod N =? S i)) (delta (x =? S i)))) = fsub (e i (S i)) (e (S i) ((S i + 1) mod N))).
        { rewrite (@vsum_ext Z2_coeff nat (seq 0 N) _ (fun x => fsub (fmul (e x ((x + 1) mod N)) (delta ((x + 1) mod N =? S i))) (fmul (e x ((x + 1) mod N)) (delta (x =? S i))))).
          2:{ intros x _. generalize (e x ((x + 1) mod N)) (delta ((x + 1) mod N =? S i) : option Z2_coeff) (delta (x =? S i) : option Z2_coeff). intros. apply ex_mul_sub. }
          rewrite vsum_sub. f_equal.
          - rewrite (@vsum_single Z2_coeff nat (seq 0 N) _ i); [|apply seq_NoDup|apply in_seq; lia|].
            + rewrite (Nat.mod_small (i + 1)) by lia. replace (i + 1) with (S i) by lia. rewrite Nat.eqb_refl. apply ex_mul_1.
            + intros x Hx Hxi. apply in_seq in Hx. destruct (Nat.eqb_spec ((x + 1) mod N) (S i)) as [Hm|]; [|apply ex_mul_0]. exfalso.
              destruct (Nat.eq_dec (x + 1) N) as [HxN|]; [rewrite HxN, Nat.mod_same in Hm by lia; discriminate|]. rewrite Nat.mod_small in Hm by lia. lia.
          - rewrite (@vsum_single Z2_coeff nat (seq 0 N) _ (S i)); [|apply seq_NoDup|apply in_seq; lia|].
            + rewrite Nat.eqb_refl. apply ex_mul_1.
            + intros x Hx Hxi. destruct (Nat.eqb_spec x (S i)); [contradiction|]. apply ex_mul_0. }
        rewrite Hsplit in Hcyc. exact (ex_sub_eq _ _ Hcyc).
      - intros x Hx. apply in_seq in Hx. rewrite (@vsum_single Z2_coeff nat (seq 0 N) _ ((x + 1) mod N)); [reflexivity|apply seq_NoDup| |].
        + apply in_seq. pose proof (Nat.mod_upper_bound (x + 1) N). lia.
        + intros y _ Hy. destruct (fscalar_dec (e x y)) as [->|Hnz]; [apply ex_0_mul|]. exfalso. apply He0, Hin, Hi in Hnz. tauto. }
    assert (Hconst : forall i, i < N -> e i ((i + 1) mod N) = e 0 (1 mod N)).
    { induction i as [|i IH]; intros Hi1; auto. rewrite <- Hstep by lia. rewrite <- IH by lia. rewrite (Nat.mod_small (i + 1)) by lia. f_equal. lia. }
    apply NoDup_Permutation; auto using cycle_nodup. intros [x y]. split; [apply Hin|]. intros H. apply Hi in H. destruct H as [Hx ->]. apply He0.
    rewrite Hconst by auto. destruct rep as [|[a b] rep'] eqn:Er; [congruence|]. assert (Hab : In (a, b) rep) by (rewrite Er; now left). rewrite <- Er in *.
    pose proof (He1 _ _ Hab) as Hnz. apply Hin, Hi in Hab. destruct Hab as [Ha ->]. now rewrite Hconst in Hnz.
  Qed.

  (** ** C63: the directed cycle *)
  Lemma cycle_run : 1 < N -> no_overflow add z inf (cycle_digraph one N) ->
    exists M : nat, forall fuel, M < fuel ->
    exists death rep,
      grpph_py HI fuel z inf sp N (cycle_digraph one N) = Ok ([[z]; []], [[]; [(z, death)]]) /\
      grpph_with_involution_py HI fuel z inf sp N (cycle_digraph one N) = Ok ([[z]; []], [[]; [(z, death)]], [rep]) /\
      Permutation rep (map fst (cycle_digraph one N)).
  Proof.
    intros HN1 Hov. set (edges := cycle_digraph one N) in *.
    assert (Hm : forall x, (x + 1) mod N < N) by (intros x; apply Nat.mod_upper_bound; lia).
    assert (Hw : weighted_digraph N z edges) by (intros u v w Hi; apply cycle_in in Hi; destruct Hi as (? & -> & ->); auto using olt_le).
    assert (Hpos : positive_weights z edges) by (intros u v w Hi; apply cycle_in in Hi; destruct Hi as (? & ? & ->); auto).
    assert (Harc : forall u, u < N -> finite_edge_of inf edges u ((u + 1) mod N) one) by (intros u Hu; split; auto; now apply cycle_in).
    assert (Hroot : forall v, v < N -> exists d, walk add z (finite_edge_of inf edges) 0 v d).
    { induction v as [|v IH]; intros Hv; [exists z; constructor|]. destruct IH as (d & Hd); [lia|]. exists (add d one). econstructor; [exact Hd|].
      specialize (Harc v ltac:(lia)). rewrite Nat.mod_small in Harc by lia. replace (v + 1) with (S v) in Harc by lia. exact Harc. }
    destruct (C60_essential_cycles HI HN Hw Hadd Hov Hlib (Nat.lt_trans 0 1 N ltac:(lia) HN1) Hroot) as (M1 & H1).
    destruct (C59_circuit_rank HI HN Hw Hpos Hadd Hov Hlib) as (M2 & H2).
    destruct (C62_representatives_in_graph HI HN Hw Hpos Hadd Hov Hlib) as (M3 & H3).
    destruct (filtration_exists inf Hw Hlib) as (time & Hspf). destruct (weighted_run HI HN Hw Hadd Hov Hlib Hspf) as (M4 & H4).
    exists (M1 + M2 + M3 + M4). intros fuel Hfuel. destruct (H1 fuel ltac:(lia)) as (ess1 & prs1 & E1 & K1). destruct (H2 fuel ltac:(lia)) as (e0 & e1 & p1 & E2 & K2).
    destruct (H3 fuel ltac:(lia)) as (es & q0 & q1 & reps & E3 & K3 & K4). destruct (H4 fuel ltac:(lia)) as (f0' & f1' & r1 & reps' & E4 & E5 & _ & K5 & _).
    rewrite E1 in E2. injection E2 as <- <- <-. rewrite E1 in E4. injection E4 as <- <- <-. rewrite E3 in E5. injection E5 as -> -> -> <-.
    assert (E6 : ess1 = []).
    { rewrite (K1 []); auto; [constructor|]. intros x y. split; [intros []|]. intros [Hi Hno]. apply in_map_iff in Hi. destruct Hi as ([[a b] w] & [= -> ->] & Hi). apply cycle_in in Hi. destruct Hi as (Hx & -> & _).
      destruct Hno as [Hno|Hno]; [|apply (Hno (add z one)); econstructor; [constructor|now apply Harc]].
      destruct (Nat.eq_dec (x + 1) N) as [HxN|]; [rewrite HxN, Nat.mod_same in Hno by lia; lia|]. rewrite Nat.mod_small in Hno by lia. lia. }
    subst ess1.
    pose proof (K2 (map fst edges) [0] (cycle_nodup one N) ltac:(tauto) (rooted_components Hw (Nat.lt_trans 0 1 N ltac:(lia) HN1) Hroot)) as H. rewrite map_length in H. unfold edges, cycle_digraph in H. rewrite map_length, seq_length in H. cbn [length] in H.
    destruct prs1 as [|[b d] [|? ?]]; cbn [length] in *; try lia. destruct (K5 b d (or_introl eq_refl)) as (-> & _).
    destruct reps as [|rep [|? ?]]; cbn [length] in K3; try lia. exists d, rep. split; auto. split; auto. destruct (K4 rep (or_introl eq_refl)) as (A1 & A2 & A3 & A4). now apply cycle_all.
  Qed.
End Examples.

Theorem C63_complete_digraph :
  forall (HI : heaps) (F : ordT) (add : F -> F -> F) (z one inf : F) (sp : list (nat * nat * F) -> nat -> nat -> option F) (N : nat),
  (N.of_nat N < 65536)%N -> olt z one -> olt one inf -> nonneg_add add z -> shortest_path_library add z N sp ->
  0 < N ->
  exists M : nat, forall fuel, M < fuel ->
  grpph_py HI fuel z inf sp N (complete_digraph one N) = Ok ([[z]; []], [[]; repeat (z, one) (N * (N - 1) + 1 - N)]).
Proof. exact complete_run. Qed.
Print Assumptions C63_complete_digraph.

Theorem C63_cycle_digraph :
  forall (HI : heaps) (F : ordT) (add : F -> F -> F) (z one inf : F) (sp : list (nat * nat * F) -> nat -> nat -> option F) (N : nat),
  (N.of_nat N < 65536)%N -> olt z one -> olt one inf -> nonneg_add add z -> shortest_path_library add z N sp ->
  1 < N -> no_overflow add z inf (cycle_digraph one N) ->
  exists M : nat, forall fuel, M < fuel ->
  exists death rep,
    grpph_py HI fuel z inf sp N (cycle_digraph one N) = Ok ([[z]; []], [[]; [(z, death)]]) /\
    grpph_with_involution_py HI fuel z inf sp N (cycle_digraph one N) = Ok ([[z]; []], [[]; [(z, death)]], [rep]) /\
    Permutation rep (map fst (cycle_digraph one N)).
Proof. exact cycle_run. Qed.
Print Assumptions C63_cycle_digraph.

(** ** Runs that meet the hypotheses *)
Lemma no_overflow_check (F : ordT) (add : F -> F -> F) (z inf : F) n (edges : list (nat * nat * F)) sp :
  weighted_digraph n z edges -> shortest_path_library add z n sp -> olt z inf ->
  (forall x y, x < n -> y < n -> match sp (finite_edges inf edges) x y with Some d => olt d inf | None => True end) -> no_overflow add z inf edges.
Proof.
  intros Hw Hlib Hz H x y d Hd. destruct (walk_vertices (n:=n) (arc_ends (inf:=inf) Hw) (proj1 Hd)) as [<-|[Hx Hy]].
  - assert (Hle : ole d z) by (apply (proj2 Hd); constructor). eapply ole_lt_trans; eauto.
  - destruct (library_shortest inf Hw Hlib Hx Hy) as [H1 H2]. specialize (H x y Hx Hy). destruct (sp (finite_edges inf edges) x y) as [d'|]; [|exfalso; exact (H2 eq_refl d (proj1 Hd))].
    rewrite (shortest_unique Hd (H1 d' eq_refl)). exact H.
Qed.

Lemma ole_nat (a b : nat_ord) : ole a b <-> (a <= b)%nat.
Proof. unfold ole. cbn [cmp nat_ord]. apply Nat.compare_le_iff. Qed.
Lemma nat_nonneg : nonneg_add (F:=nat_ord) Nat.add 0.
Proof. split; [reflexivity|]. intros d w _ _. split; apply ole_nat; lia. Qed.
Lemma nat_library n : shortest_path_library (F:=nat_ord) Nat.add 0 n (fun edges => bellman (F:=nat_ord) Nat.add 0 edges n).
Proof. apply bellman_library; [exact nat_nonneg|]. intros a b w H. apply ole_nat. apply ole_nat in H. lia. Qed.

(** examples/infinite_weights.py: an edge of infinite weight, an isolated vertex and several components *)
Definition ex_infinite : list (nat * nat * nat_ord) := [(0, 1, 1); (1, 0, 1); (1, 2, 1000); (3, 4, 10); (4, 3, 10)].
Example C57_ex : weighted_digraph (F:=nat_ord) 6 0 ex_infinite /\ positive_weights (F:=nat_ord) 0 ex_infinite /\ no_overflow (F:=nat_ord) Nat.add 0 1000 ex_infinite /\
  component_representatives 6 (map fst ex_infinite) [0; 3; 5] /\
  grpph_with_involution_py (F:=nat_ord) list_heaps 30 0 1000 (fun edges => bellman (F:=nat_ord) Nat.add 0 edges 6) 6 ex_infinite =
    Ok ([[0; 0; 0]; []], [[]; [(0, 1); (0, 10)]], [[(4, 3); (3, 4)]; [(1, 0); (0, 1)]]).
Proof.
  assert (Hw : weighted_digraph (F:=nat_ord) 6 0 ex_infinite).
  { intros u v w H. repeat (destruct H as [[= <- <- <-]|H]; [repeat split; try lia; apply ole_nat; lia|]). destruct H. }
  split; auto. split; [intros u v w H; repeat (destruct H as [[= <- <- <-]|H]; [reflexivity|]); destruct H|]. split.
  - eapply no_overflow_check; [exact Hw|apply nat_library|reflexivity|]. intros x y Hx Hy.
    do 6 (destruct x as [|x]; [do 6 (destruct y as [|y]; [vm_compute; exact I || reflexivity|]); lia|]). lia.
  - split; [|vm_compute; reflexivity]. repeat split.
    + repeat constructor; cbn [In]; lia.
    + intros r H. cbn [In] in H. lia.
    + assert (H : forall x y, In (x, y) (map fst ex_infinite) -> weakly_connected (map fst ex_infinite) y x) by (intros x y H; apply Relation_Operators.rst_sym, Relation_Operators.rst_step; auto).
      intros v Hv. destruct v as [|[|[|[|[|[|v]]]]]]; try lia; [exists 0|exists 0|exists 0|exists 3|exists 3|exists 5]; (split; [cbn [In]; tauto|]); try apply Relation_Operators.rst_refl; try (apply H; cbn [In map fst ex_infinite]; tauto).
      eapply Relation_Operators.rst_trans; [apply (H 1 2)|apply (H 0 1)]; cbn [In map fst ex_infinite]; tauto.
    + assert (Hinv : forall x y, weakly_connected (map fst ex_infinite) x y -> (x <= 2 <-> y <= 2) /\ ((3 <= x <= 4) <-> (3 <= y <= 4))).
      { induction 1 as [x y H| |x y H IH|x y w H1 IH1 H2 IH2]; try lia. cbn [In map fst ex_infinite] in H. repeat (destruct H as [[= <- <-]|H]; [lia|]). destruct H. }
      intros r r' Hr Hr' Hc. apply Hinv in Hc. cbn [In] in Hr, Hr'. lia.
Qed.

Example C63_ex_complete : grpph_py (F:=nat_ord) list_heaps 80 0 1000 (fun edges => bellman (F:=nat_ord) Nat.add 0 edges 3) 3 (complete_digraph (F:=nat_ord) 1 3) = Ok ([[0]; []], [[]; repeat (0, 1) 4]).
Proof. vm_compute. reflexivity. Qed.
Example C63_ex_cycle : no_overflow (F:=nat_ord) Nat.add 0 1000 (cycle_digraph (F:=nat_ord) 1 5) /\
  exists death rep, grpph_with_involution_py (F:=nat_ord) list_heaps 80 0 1000 (fun edges => bellman (F:=nat_ord) Nat.add 0 edges 5) 5 (cycle_digraph (F:=nat_ord) 1 5) = Ok ([[0]; []], [[]; [(0, death)]], [rep]) /\ length rep = 5 /\ death = 3.
Proof.
  split; [|eexists _, _; split; [vm_compute; reflexivity|split; reflexivity]].
  assert (Hw : weighted_digraph (F:=nat_ord) 5 0 (cycle_digraph (F:=nat_ord) 1 5)).
  { intros u v w H. apply cycle_in in H. destruct H as (Hu & -> & ->). repeat split; [auto| |apply ole_nat; lia]. apply Nat.mod_upper_bound. lia. }
  eapply no_overflow_check; [exact Hw|apply nat_library|reflexivity|]. intros x y Hx Hy.
  do 5 (destruct x as [|x]; [do 5 (destruct y as [|y]; [vm_compute; exact I || reflexivity|]); lia|]). lia.
Qed.

(** C58, C59, C62 on the same digraph: the bars are those of [C57_ex] *)
Example C58_ex : exists N, forall fuel, N < fuel -> exists ess0 ess1 prs1,
  grpph_py (F:=nat_ord) list_heaps fuel 0 1000 (fun edges => bellman (F:=nat_ord) Nat.add 0 edges 6) 6 ex_infinite = Ok ([ess0; ess1], [[]; prs1]) /\
  length ess0 = 3 /\ (forall birth, In birth (ess0 ++ ess1) -> birth = 0).
Proof.
  destruct C57_ex as (H1 & H2 & H3 & H4 & _).
  destruct (C58_births_and_deaths list_heaps (n:=6) eq_refl H1 nat_nonneg H3 (@nat_library 6)) as (N & HN). exists N. intros fuel Hf.
  destruct (HN fuel Hf) as (ess0 & ess1 & prs1 & E & A & _ & B). exists ess0, ess1, prs1. split; [exact E|]. split; [exact (B _ H4)|exact A].
Qed.
Example C59_ex : exists N, forall fuel, N < fuel -> exists ess0 ess1 prs1,
  grpph_py (F:=nat_ord) list_heaps fuel 0 1000 (fun edges => bellman (F:=nat_ord) Nat.add 0 edges 6) 6 ex_infinite = Ok ([ess0; ess1], [[]; prs1]) /\
  length ess1 + length prs1 = 2.
Proof.
  destruct C57_ex as (H1 & H2 & H3 & H4 & _).
  destruct (C59_circuit_rank list_heaps (n:=6) eq_refl H1 H2 nat_nonneg H3 (@nat_library 6)) as (N & HN). exists N. intros fuel Hf.
  destruct (HN fuel Hf) as (ess0 & ess1 & prs1 & E & A). exists ess0, ess1, prs1. split; [exact E|].
  specialize (A (map fst ex_infinite) _ ltac:(repeat constructor; cbn [In map fst ex_infinite]; intuition congruence) ltac:(reflexivity) H4). cbn [length map ex_infinite] in A. lia.
Qed.
Example C62_ex : exists N, forall fuel, N < fuel -> exists ess prs0 prs1 reps,
  grpph_with_involution_py (F:=nat_ord) list_heaps fuel 0 1000 (fun edges => bellman (F:=nat_ord) Nat.add 0 edges 6) 6 ex_infinite = Ok (ess, [prs0; prs1], reps) /\
  forall rep, In rep reps -> rep <> [] /\ forall x y, In (x, y) rep -> In (x, y) [(0, 1); (1, 0); (1, 2); (3, 4); (4, 3)].
Proof.
  destruct C57_ex as (H1 & H2 & H3 & H4 & _).
  destruct (C62_representatives_in_graph list_heaps (n:=6) eq_refl H1 H2 nat_nonneg H3 (@nat_library 6)) as (N & HN). exists N. intros fuel Hf.
  destruct (HN fuel Hf) as (ess & p0 & p1 & reps & E & _ & A). exists ess, p0, p1, reps. split; [exact E|]. intros rep Hr. split; apply (A rep Hr).
Qed.
(** C60: vertex 0 reaches every vertex; the edge 1 -> 2 of infinite weight and the loop at 1 never die *)
Definition ex_rooted : list (nat * nat * nat_ord) := [(0, 1, 1); (0, 2, 2); (1, 2, 1000); (1, 1, 5); (2, 0, 7)].
Example C60_ex : exists N, forall fuel, N < fuel -> exists prs1,
  grpph_py (F:=nat_ord) list_heaps fuel 0 1000 (fun edges => bellman (F:=nat_ord) Nat.add 0 edges 3) 3 ex_rooted = Ok ([[0]; [0; 0]], [[]; prs1]).
Proof.
  assert (Hw : weighted_digraph (F:=nat_ord) 3 0 ex_rooted).
  { intros u v w H. repeat (destruct H as [[= <- <- <-]|H]; [repeat split; try lia; apply ole_nat; lia|]). destruct H. }
  assert (Hno : no_overflow (F:=nat_ord) Nat.add 0 1000 ex_rooted).
  { eapply no_overflow_check; [exact Hw|apply nat_library|reflexivity|]. intros x y Hx Hy.
    do 3 (destruct x as [|x]; [do 3 (destruct y as [|y]; [vm_compute; exact I || reflexivity|]); lia|]). lia. }
  assert (Ha : forall u v w, In (u, v, w) ex_rooted -> w < 1000 -> finite_edge_of (F:=nat_ord) 1000 ex_rooted u v w).
  { intros u v w H1 H2. split; auto. unfold olt. cbn [cmp nat_ord]. apply Nat.compare_lt_iff. exact H2. }
  assert (H0 : forall v, v < 3 -> exists d, walk (F:=nat_ord) Nat.add 0 (finite_edge_of (F:=nat_ord) 1000 ex_rooted) 0 v d).
  { intros v Hv. destruct v as [|[|[|v]]]; try lia; eexists.
    - apply walk_nil.
    - eapply walk_snoc; [apply walk_nil|apply (Ha 0 1 1); [cbn [In ex_rooted]; tauto|lia]].
    - eapply walk_snoc; [apply walk_nil|apply (Ha 0 2 2); [cbn [In ex_rooted]; tauto|lia]]. }
  destruct (C60_essential_cycles list_heaps (n:=3) (root:=0) eq_refl Hw nat_nonneg Hno (@nat_library 3) ltac:(lia) H0) as (N & HN). exists N. intros fuel Hf.
  destruct (HN fuel Hf) as (ess1 & prs1 & E & A). exists prs1. rewrite E. rewrite (A [(1, 2); (1, 1)]); [reflexivity|repeat constructor; cbn [In]; intuition discriminate|].
  assert (H1 : forall y d, walk (F:=nat_ord) Nat.add 0 (finite_edge_of (F:=nat_ord) 1000 ex_rooted) 1 y d -> y = 1).
  { intros y d Hd. induction Hd as [|u y d w Hd IH [Hi Hlt]]; auto. subst u. cbn [In ex_rooted] in Hi.
    repeat (destruct Hi as [Hi|Hi]; [injection Hi; intros; subst; first [reflexivity|discriminate|congruence]|]). destruct Hi. }
  intros x y. split.
  - intros [[= <- <-]|[[= <- <-]|[]]]; (split; [cbn [In map fst ex_rooted]; tauto|]); [right|now left].
    intros d Hd. apply H1 in Hd. discriminate.
  - intros [Hi Hc]. cbn [In map fst ex_rooted] in Hi. destruct Hi as [[= <- <-]|[[= <- <-]|[[= <- <-]|[[= <- <-]|[[= <- <-]|[]]]]]]; cbn [In]; try tauto; exfalso; destruct Hc as [Hc|Hc]; try discriminate Hc; eapply Hc; (eapply walk_snoc; [apply walk_nil|]).
    + apply (Ha 0 1 1); [cbn [In ex_rooted]; tauto|lia].
    + apply (Ha 0 2 2); [cbn [In ex_rooted]; tauto|lia].
    + apply (Ha 2 0 7); [cbn [In ex_rooted]; tauto|lia].
Qed.
