(** Property theorems C69: the bars are stable when the input is perturbed. *)
From Verif Require Import Base Fields FieldsFacts Spec LinAlg Columns ColumnsFacts Matrices Reduction Rips SpecRips SpecPath RipsCode RipsFacts RipsBasis RipsComplex PropRips RipsCohomology PropRipsCohomology SpecPH Persistence BettiUnique RipsPersistence PropRipsPersistence PropRipsCli BettiMaps
  Graded Grpph SpecGrpph SpecWeighted PathBasis PathBetti Weighted WeightedCone WeightedRun ShortestPaths PropWeighted PropGrpphExamples.
From Coq Require Import Ring Field Permutation Sorted Lia.
Set Implicit Arguments.

(** ** C69, Rips: [d] and [d'] are distances between the same number of points, with values in possibly different ordered types.
    If distances of [d] up to [s] are at most [s'] in [d'], and distances of [d'] up to [t'] are at most [t] in [d], then no fewer bars
    of [d'] contain [s', t'] than bars of [d] contain [s, t].  With [s' = s + delta] and [t = t' + delta] this is stability under
    perturbations by [delta] of the distances. *)
Theorem C69_rips_stability :
  forall (HI HI' : heaps) (K : coeffT) (F F' : ordT) (uw : N) (z : F) (z' : F') (d : list (list F)) (d' : list (list F')) (max_dim : nat),
  rips_matrix z d -> rips_matrix z' d' -> length d' = length d -> 1 <= max_dim -> codes_fit uw (length d) (max_dim + 2) ->
  forall (L : list N) (fuel fuel' : nat), covers_simplices (length d) (max_dim + 2) L -> length L < fuel -> length L < fuel' ->
  exists rc dg rc' dg',
    rips_cohomology HI (K:=K) fuel uw z d max_dim = Ok (rc, dg) /\
    rips_cohomology HI' (K:=K) fuel' uw z' d' max_dim = Ok (rc', dg') /\
    let E := map unrev (essential dg) : list N_ord in
    let P := map (fun p => (unrev (snd p), unrev (fst p))) (pairings dg) : list (N_ord * N_ord) in
    let E' := map unrev (essential dg') : list N_ord in
    let P' := map (fun p => (unrev (snd p), unrev (fst p))) (pairings dg') : list (N_ord * N_ord) in
    forall (phi : N_ord -> F) (phi' : N_ord -> F') (dim : N_ord -> Z),
    rips_filtration z d phi -> rips_filtration z' d' phi' -> simplex_dim (length d) dim ->
    forall (q : Z) (s t : F) (s' t' : F'), (q <= Z.of_nat max_dim)%Z ->
    (forall i j, i < length d -> j < length d -> ole (dist z d i j) s -> ole (dist z' d' i j) s') ->
    (forall i j, i < length d -> j < length d -> ole (dist z' d' i j) t' -> ole (dist z d i j) t) ->
    length (alive phi dim E P q s t) <= length (alive phi' dim E' P' q s' t').
Proof.
  intros HI HI' K F F' uw z z' d d' m Hd Hd' El Hm Hfit L fuel fuel' HL Hf Hf'.
  destruct (@C54_rips_bars_count HI K F uw z d m Hd Hm Hfit L fuel HL Hf) as (rc & dg & E1 & H1).
  pose proof Hfit as Hfit'. pose proof HL as HL'. rewrite <- El in Hfit', HL'.
  destruct (@C54_rips_bars_count HI' K F' uw z' d' m Hd' Hm Hfit' L fuel' HL' Hf') as (rc' & dg' & E2 & H2).
  exists rc, dg, rc', dg'. split; auto. split; auto. intros E P E' P' phi phi' dim Hphi Hphi' Hdim q s t s' t' Hq Hs Ht. cbv zeta in H1, H2.
  destruct (@spec_exists K F z d Hd) as (_ & HD & _ & Hls).
  remember (length d + m + 2) as kk eqn:Hkk. specialize (Hls kk ltac:(lia)).
  specialize (H1 phi (spec_boundary z d) dim kk (every z d) Hphi HD Hdim ltac:(lia) Hls q s t).
  pose proof HD as HD2. pose proof Hdim as Hdim2. pose proof Hls as Hls2. rewrite <- El in HD2, Hdim2, Hls2.
  specialize (H2 phi' (spec_boundary z d) dim kk (every z d) Hphi' HD2 Hdim2 ltac:(lia) Hls2 q s' t').
  eapply (@interleaved_betti K F F' N_ord phi phi' dim (-1)%Z (every z d) (spec_boundary z d) q s t s' t');
    [| |apply H1; [exact Hq|reflexivity]|apply H2; [exact Hq|reflexivity]].
  - intros c Hc Hle. apply Hls in Hc. destruct Hc as (u & Hu & _ & ->). destruct (Hphi u Hu) as [_ Hmax].
    assert (Hu' : simplex (length d') u) by now rewrite El. pose proof (Hphi' u Hu') as [(i & j & Hi & Hj & Ed) _]. rewrite El in Ed. rewrite <- Ed.
    assert (Hb : forall x, In x u -> x < length d) by (intros x Hx; exact (proj1 (Forall_forall _ _) (proj2 (proj2 Hu)) x Hx)).
    apply Hs; auto. eapply ole_trans; [|exact Hle]. auto.
  - intros c Hc Hle. apply Hls in Hc. destruct Hc as (u & Hu & _ & ->). destruct (Hphi u Hu) as [(i & j & Hi & Hj & Ed) _].
    assert (Hu' : simplex (length d') u) by now rewrite El. pose proof (Hphi' u Hu') as [_ Hmax]. rewrite El in Hmax. rewrite <- Ed.
    assert (Hb : forall x, In x u -> x < length d) by (intros x Hx; exact (proj1 (Forall_forall _ _) (proj2 (proj2 Hu)) x Hx)).
    apply Ht; auto. eapply ole_trans; [|exact Hle]. auto.
Qed.
Print Assumptions C69_rips_stability.

(** ** Path homology *)
Section Paths.
  Context {K : coeffT} {F F' : ordT} (n : nat).
  Add Field KFst : (F_field K).
  Variables (time : nat -> nat -> option F) (z inf : F) (E : list (nat * nat)) (add : F -> F -> F) (arc : nat -> nat -> F -> Prop).
  Variables (time' : nat -> nat -> option F') (z' : F') (E' : list (nat * nat)).
  Hypothesis HG : filtered_digraph time n z inf.
  Hypothesis HE : forall s t, In (s, t) E -> s < n /\ t < n.
  Hypothesis Hadd : nonneg_add add z.
  Hypothesis Harc : forall u v w, arc u v w -> In (u, v) E /\ ole z w.
  Hypothesis Hspf : shortest_path_filtration add z arc time.
  Hypothesis HEE : incl E E'.
  Lemma path_interleave (t : F) (t' : F') k k' : ole z' t' ->
    (forall x y, edge_at time' t' x y -> edge_at time t x y) ->
    path_betti_1 (K:=K) time n z E t t k -> path_betti_1 (K:=K) time' n z' E' t' t' k' -> k <= k'.
  Proof.
    intros Hz' Ht (I & bars & Z & N1 & <- & C1 & _ & L1) (J & bars' & Z' & _ & <- & _ & S2 & _).
    destruct (Nat.le_gt_cases (length bars) (length bars')) as [|Hgt]; auto. exfalso.
    assert (Hinv : forall e, boundary_1 (K:=K) time' n t' e -> boundary_1 (K:=K) time n t e).
    { intros e (u & [U1 U2] & Eu). exists u. split; auto. split; [intros a b c Hu; destruct (U1 _ _ _ Hu); split; auto|auto]. }
    destruct (@list_choice I (vec K J * edge_chain (K:=K)) (fun b p => boundary_1 (K:=K) time n t (fun x y => fsub (Z b x y) (snd p x y)) /\
       boundary_1 (K:=K) time n t (fun x y => fsub (snd p x y) (vsum bars' (fun b' => fmul (fst p b') (Z' b' x y))))) (fun _ => f0, fun _ _ => f0) bars) as (f & Hf).
    { intros b Hb. destruct (C1 b Hb) as [Hc Hz]. destruct (chain_surj HG HE Hadd Harc Hspf Hc) as (c & Hin & Hbd & Hcc).
      destruct (S2 c) as (a & Ha).
      - split; [apply in_E_at; auto; intros x y Hxy; apply HEE; now apply Hin|]. intros v. rewrite <- Hcc. apply Hz.
      - exists (a, c). split; auto. }
    destruct (@kernel_nontrivial K J I bars' (fun b' b => fst (f b) b') bars N1 Hgt) as (x & (u & Hu & Hxu) & Hx).
    apply Hxu. apply (L1 x); auto.
    apply B1_ext with (e := fun a b => fadd (vsum bars (fun i => fmul (x i) (fsub (Z i a b) (snd (f i) a b))))
       (fmul f1 (vsum bars (fun i => fmul (x i) (fsub (snd (f i) a b) (vsum bars' (fun b' => fmul (fst (f i) b') (Z' b' a b)))))))).
    - intros a b.
      assert (Hk : vsum bars (fun i => fmul (x i) (vsum bars' (fun b' => fmul (fst (f i) b') (Z' b' a b)))) = f0).
      { transitivity (vsum bars (fun i => vsum bars' (fun b' => fmul (x i) (fmul (fst (f i) b') (Z' b' a b))))); [apply vsum_ext; intros; now rewrite vsum_mul_l|].
        rewrite vsum_swap. apply vsum_0. intros b' Hb'. transitivity (fmul (Z' b' a b) (vsum bars (fun i => fmul (fst (f i) b') (x i)))).
        - rewrite <- vsum_mul_l. apply vsum_ext. intros; ring.
        - rewrite Hx by auto. ring. }
      transitivity (fsub (vsum bars (fun i => fmul (x i) (Z i a b))) (vsum bars (fun i => fmul (x i) (vsum bars' (fun b' => fmul (fst (f i) b') (Z' b' a b)))))); [|rewrite Hk; ring].
      rewrite <- vsum_mul_l, <- vsum_add.
      transitivity (vsum bars (fun i => fadd (fmul (x i) (Z i a b)) (fmul (fopp f1) (fmul (x i) (vsum bars' (fun b' => fmul (fst (f i) b') (Z' b' a b))))))); [apply vsum_ext; intros; ring|].
      rewrite vsum_add, vsum_mul_l. generalize (vsum bars (fun i => fmul (x i) (vsum bars' (fun b' => fmul (fst (f i) b') (Z' b' a b))))) (vsum bars (fun i => fmul (x i) (Z i a b))). intros; ring.
    - apply B1_lin; apply B1_sum; intros i Hi _; apply Hf; auto.
  Qed.
End Paths.

(** ** C69, GrPPH: [edges'] contains the edges of [edges], perhaps with other weights, perhaps in another ordered type.  If every
    pair joined in [edges'] by a walk of length at most [t'] is joined in [edges] by one of length at most [t], then no fewer bars of dimension 1
    of [edges'] are alive at [t'] than bars of [edges] at [t]. *)
Theorem C69_grpph_stability :
  forall (HI HI' : heaps) (F F' : ordT) (add : F -> F -> F) (add' : F' -> F' -> F') (z inf : F) (z' inf' : F') (n : nat)
    (edges : list (nat * nat * F)) (edges' : list (nat * nat * F')) sp sp',
  (N.of_nat n < 65536)%N ->
  weighted_digraph n z edges -> nonneg_add add z -> no_overflow add z inf edges -> shortest_path_library add z n sp ->
  weighted_digraph n z' edges' -> nonneg_add add' z' -> no_overflow add' z' inf' edges' -> shortest_path_library add' z' n sp' ->
  incl (map fst edges) (map fst edges') ->
  exists M : nat, forall fuel fuel', M < fuel -> M < fuel' ->
  exists ess0 ess1 prs0 prs1 ess0' ess1' prs0' prs1',
    grpph_py HI fuel z inf sp n edges = Ok ([ess0; ess1], [prs0; prs1]) /\
    grpph_py HI' fuel' z' inf' sp' n edges' = Ok ([ess0'; ess1'], [prs0'; prs1']) /\
    forall (t : F) (t' : F'), ole z' t' ->
      (forall x y l', x <> y -> walk add' z' (finite_edge_of inf' edges') x y l' -> ole l' t' ->
         exists l, walk add z (finite_edge_of inf edges) x y l /\ ole l t) ->
      bars_alive t t ess1 prs1 <= bars_alive t' t' ess1' prs1'.
Proof.
  intros HI HI' F F' add add' z inf z' inf' n edges edges' sp sp' Hn Hw Hadd Hov Hlib Hw' Hadd' Hov' Hlib' Hincl.
  destruct (C57_weighted_digraph HI Hn Hw Hadd Hov Hlib) as (time & Hspf & M1 & H1).
  destruct (C57_weighted_digraph HI' Hn Hw' Hadd' Hov' Hlib') as (time' & Hspf' & M2 & H2).
  exists (M1 + M2). intros fuel fuel' Hf Hf'. destruct (H1 fuel ltac:(lia)) as (ess0 & ess1 & prs0 & prs1 & E1 & V1 & B1). destruct (H2 fuel' ltac:(lia)) as (ess0' & ess1' & prs0' & prs1' & E2 & V2 & B2).
  exists ess0, ess1, prs0, prs1, ess0', ess1', prs0', prs1'. split; auto. split; auto. intros t t' Hz' Ht.
  eapply (@path_interleave Z2_coeff F F' n time z inf (map fst edges) add (finite_edge_of inf edges) time' z' (map fst edges')); eauto.
  - eapply filtration_digraph; eauto.
  - apply (run_ground Hw).
  - apply (run_arc Hw).
  - intros x y (f & Ef & Hle). assert (Hne : x <> y) by (intros ->; destruct Hspf' as (S1 & _); rewrite S1 in Ef; discriminate).
    destruct Hspf' as (_ & S2 & _). apply S2 in Ef. destruct Ef as [Ef _]. destruct (Ht x y f Hne Ef Hle) as (l & Hl & Hlt).
    destruct (walk_time Hspf Hl Hne) as (g & Eg & Hg). exists g. split; auto. eapply ole_trans; eauto.
  - apply (B1 t t (ole_refl t)). reflexivity.
  - apply (B2 t' t' (ole_refl t')). reflexivity.
Qed.
Print Assumptions C69_grpph_stability.

(** Making edges longer keeps bars alive longer: at every time the number of bars does not decrease. *)
Theorem C69_longer_edges :
  forall (HI HI' : heaps) (F : ordT) (add : F -> F -> F) (z inf : F) (n : nat) (edges edges' : list (nat * nat * F)) sp sp',
  (N.of_nat n < 65536)%N ->
  weighted_digraph n z edges -> no_overflow add z inf edges -> weighted_digraph n z edges' -> no_overflow add z inf edges' ->
  nonneg_add add z -> (forall a a' b b', ole a a' -> ole b b' -> ole (add a b) (add a' b')) ->
  shortest_path_library add z n sp -> shortest_path_library add z n sp' ->
  Forall2 (fun e e' => fst e = fst e' /\ ole (snd e) (snd e')) edges edges' ->
  exists M : nat, forall fuel fuel', M < fuel -> M < fuel' ->
  exists ess0 ess1 prs0 prs1 ess0' ess1' prs0' prs1',
    grpph_py HI fuel z inf sp n edges = Ok ([ess0; ess1], [prs0; prs1]) /\
    grpph_py HI' fuel' z inf sp' n edges' = Ok ([ess0'; ess1'], [prs0'; prs1']) /\
    forall t, ole z t -> bars_alive t t ess1 prs1 <= bars_alive t t ess1' prs1'.
Proof.
  intros HI HI' F add z inf n edges edges' sp sp' Hn Hw Hov Hw' Hov' Hadd Hmono Hlib Hlib' H2.
  assert (Hback : forall u v w', In (u, v, w') edges' -> exists w, In (u, v, w) edges /\ ole w w').
  { clear - H2. induction H2 as [|[[a b] w] [[a' b'] w'] l l' [E Hle] _ IH]; intros u v x; [intros []|]. cbn [fst snd] in *. injection E as <- <-.
    intros [[= -> -> ->]|Hin]; [exists w; split; auto; now left|]. destruct (IH _ _ _ Hin) as (y & Hy & Hl). exists y. split; auto. now right. }
  assert (Hincl : incl (map fst edges) (map fst edges')).
  { assert (E : map fst edges = map fst edges') by (clear - H2; induction H2 as [|e e' l l' [E _] _ IH]; auto; cbn [map]; congruence). rewrite E. apply incl_refl. }
  destruct (@C69_grpph_stability HI HI' F F add add z inf z inf n edges edges' sp sp' Hn Hw Hadd Hov Hlib Hw' Hadd Hov' Hlib' Hincl) as (M & HM).
  exists M. intros fuel fuel' Hf Hf'. destruct (HM fuel fuel' Hf Hf') as (ess0 & ess1 & prs0 & prs1 & ess0' & ess1' & prs0' & prs1' & E1 & E2 & H).
  exists ess0, ess1, prs0, prs1, ess0', ess1', prs0', prs1'. split; auto. split; auto. intros t Hz. apply H; auto. intros x y l' _ Hwk Hle.
  assert (Hex : exists l, walk add z (finite_edge_of inf edges) x y l /\ ole l l').
  { clear Hle H. induction Hwk as [|u y d w Hwk IH [Hin Hfin]]; [exists z; split; [constructor|apply ole_refl]|].
    destruct IH as (l & Hl & Hle). destruct (Hback _ _ _ Hin) as (w0 & Hw0 & Hle0). exists (add l w0). split; [|auto].
    econstructor; [exact Hl|]. split; auto. eapply ole_lt_trans; eauto. }
  destruct Hex as (l & Hl & Hll). exists l. split; auto. eapply ole_trans; eauto.
Qed.
Print Assumptions C69_longer_edges.

(** Points 0, 1, 3, 7 and points 0, 2, 3, 8: distances differ by at most 1, so with [s = 0], [t = 3], [s' = 1], [t' = 2] the hypotheses of
    the first theorem hold; two components are alive on both sides. *)
Definition line4p : list (list nat_ord) := [[0; 2; 3; 8]; [2; 0; 1; 6]; [3; 1; 0; 5]; [8; 6; 5; 0]].
Example C69_ex_rips : rips_matrix (0 : nat_ord) line4p /\
  (forall i j, i < 4 -> j < 4 -> ole (dist (0 : nat_ord) line4 i j) (0 : nat_ord) -> ole (dist (0 : nat_ord) line4p i j) (1 : nat_ord)) /\
  (forall i j, i < 4 -> j < 4 -> ole (dist (0 : nat_ord) line4p i j) (2 : nat_ord) -> ole (dist (0 : nat_ord) line4 i j) (3 : nat_ord)) /\
  rips_main list_heaps 700 (2 ^ 64) (0 : nat_ord) Nat.sub (0 : nat_ord) line4 1 =
    Ok ([4; 6], [(0, 1%N, 0)], [(0, (2%N, 11%N), (0, 1)); (0, (3%N, 17%N), (0, 2)); (0, (4%N, 23%N), (0, 4))]) /\
  rips_main list_heaps 700 (2 ^ 64) (0 : nat_ord) Nat.sub (0 : nat_ord) line4p 1 =
    Ok ([4; 6], [(0, 1%N, 0)], [(0, (2%N, 11%N), (0, 2)); (0, (3%N, 17%N), (0, 1)); (0, (4%N, 23%N), (0, 5))]).
Proof.
  split; [|split; [|split; [|split]]].
  - apply distance_rips. split; [intros row H; simpl in H; repeat (destruct H as [<-|H]; [reflexivity|]); destruct H|]. change (length line4p) with 4. split; [|split].
    + intros i j Hi Hj. do 4 (destruct i as [|i]; [do 4 (destruct j as [|j]; [reflexivity|]); lia|]). lia.
    + intros i Hi. do 4 (destruct i as [|i]; [reflexivity|]). lia.
    + intros i j Hi Hj. apply ole_nat. apply Nat.le_0_l.
  - intros i j Hi Hj. do 4 (destruct i as [|i]; [do 4 (destruct j as [|j]; [rewrite !ole_nat; cbn; lia|]); lia|]). lia.
  - intros i j Hi Hj. do 4 (destruct i as [|i]; [do 4 (destruct j as [|j]; [rewrite !ole_nat; cbn; lia|]); lia|]). lia.
  - vm_compute. reflexivity.
  - vm_compute. reflexivity.
Qed.
(** the diamond of C67_ex, and the same with some edges longer: one of the two loops is filled later *)
Example C69_ex_grpph :
  let edges := [(0, 1, 1); (1, 2, 2); (0, 2, 4); (2, 3, 1); (1, 3, 5)] : list (nat * nat * nat_ord) in
  let edges' := [(0, 1, 3); (1, 2, 2); (0, 2, 4); (2, 3, 1); (1, 3, 6)] : list (nat * nat * nat_ord) in
  weighted_digraph (F:=nat_ord) 4 0 edges' /\ Forall2 (fun e e' => fst e = fst e' /\ ole (snd e) (snd e')) edges edges' /\
  (forall a a' b b' : nat_ord, ole a a' -> ole b b' -> ole (a + b : nat_ord) (a' + b' : nat_ord)) /\
  grpph_py (F:=nat_ord) list_heaps 40 0 1000 (fun e => bellman (F:=nat_ord) Nat.add 0 e 4) 4 edges = Ok ([[0]; []], [[]; [(0, 3); (0, 3)]]) /\
  grpph_py (F:=nat_ord) list_heaps 40 0 1000 (fun e => bellman (F:=nat_ord) Nat.add 0 e 4) 4 edges' = Ok ([[0]; []], [[]; [(0, 4); (0, 3)]]).
Proof.
  cbv zeta. split; [intros u v w H; simpl in H; repeat (destruct H as [[= <- <- <-]|H]; [repeat split; auto; try lia; apply ole_nat; lia|]); destruct H|].
  split; [repeat constructor; apply ole_nat; cbn; lia|]. split; [|split; vm_compute; reflexivity].
  intros a a' b b' H1 H2. apply ole_nat in H1, H2. apply ole_nat. apply Nat.add_le_mono; auto.
Qed.
