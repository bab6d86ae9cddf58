(** Property theorem C111: changing the unit of the weights changes the unit of the bars of grpph and nothing else. *)
From Coq Require Import Permutation ZArith Reals Lra Lia.
From Flocq Require Import Core BinarySingleNaN Plus_error Mult_error.
From Verif Require Import Base Fields FieldsFacts Spec LinAlg Columns ColumnsFacts Matrices Grpph SpecGrpph SpecPath SpecWeighted Weighted WeightedRun ShortestPaths PropWeighted PropGrpphExamples SpecBottleneck Matching Examples PropStability PropArithmetics Float64 DoubleWalks PropDouble StdHeap Dijkstra PropDijkstra.
Set Implicit Arguments.

(** ** Any change of units that respects order and sums *)
Definition change_of_units {F F' : ordT} (add : F -> F -> F) (z inf : F) (add' : F' -> F' -> F') (z' inf' : F') (f : F -> F') : Prop :=
  (forall a b, cmp (f a) (f b) = cmp a b) /\ (forall a b, f (add a b) = add' (f a) (f b)) /\ f z = z' /\ f inf = inf'.
(** the same edges, with the new weights *)
Definition convert {W W' : Type} (f : W -> W') (edges : list (nat * nat * W)) : list (nat * nat * W') := map (fun e => (fst e, f (snd e))) edges.

Section Convert.
  Context {F F' : ordT} (add : F -> F -> F) (z inf : F) (add' : F' -> F' -> F') (z' inf' : F') (f : F -> F') (edges : list (nat * nat * F)).
  Hypothesis Hf : change_of_units add z inf add' z' inf' f.
  Lemma in_convert u v w' : In (u, v, w') (convert f edges) <-> exists w, In (u, v, w) edges /\ w' = f w.
  Proof.
    unfold convert. rewrite in_map_iff. split.
    - intros ([[a b] w] & [= -> -> <-] & H). eauto.
    - intros (w & H & ->). exists (u, v, w). auto.
  Qed.
  Lemma convert_ole a b : ole (f a) (f b) <-> ole a b.
  Proof. unfold ole. now rewrite (proj1 Hf). Qed.
  Lemma convert_olt a b : olt (f a) (f b) <-> olt a b.
  Proof. unfold olt. now rewrite (proj1 Hf). Qed.
  Lemma convert_walk x y d : walk add z (finite_edge_of inf edges) x y d -> walk add' z' (finite_edge_of inf' (convert f edges)) x y (f d).
  Proof.
    destruct Hf as (H1 & H2 & H3 & H4). induction 1 as [|u y d w H IH [Ha Hl]]; [rewrite H3; constructor|]. rewrite H2. econstructor; [exact IH|]. split; [apply in_convert; eauto|].
    rewrite <- H4. now apply convert_olt.
  Qed.
  Lemma convert_walk_back x y d' : walk add' z' (finite_edge_of inf' (convert f edges)) x y d' -> exists d, d' = f d /\ walk add z (finite_edge_of inf edges) x y d.
  Proof.
    destruct (Datatypes.id Hf) as (H1 & H2 & H3 & H4). induction 1 as [|u y d' w' H IH [Ha Hl]]; [exists z; split; [auto|constructor]|].
    destruct IH as (d & -> & Hd). apply in_convert in Ha. destruct Ha as (w & Ha & ->). exists (add d w). split; [auto|]. econstructor; [exact Hd|]. split; auto.
    rewrite <- H4 in Hl. now apply convert_olt.
  Qed.
  Lemma convert_digraph n : weighted_digraph n z edges -> weighted_digraph n z' (convert f edges).
  Proof.
    intros H u v w' Hin. apply in_convert in Hin. destruct Hin as (w & Hin & ->). destruct (H _ _ _ Hin) as (A & B & C). split; auto. split; auto.
    assert (E : f z = z') by apply Hf. rewrite <- E. now apply convert_ole.
  Qed.
  Lemma convert_no_overflow : no_overflow add z inf edges -> no_overflow add' z' inf' (convert f edges).
  Proof.
    intros H x y d' [Hd Hmin]. apply convert_walk_back in Hd. destruct Hd as (d & -> & Hd). assert (E : f inf = inf') by apply Hf. rewrite <- E. apply convert_olt. apply (H x y d). split; auto.
    intros d1 Hd1. apply convert_ole. apply Hmin. now apply convert_walk.
  Qed.
End Convert.

Theorem C111_change_of_units :
  forall (HI HI' : heaps) (F F' : ordT) (add : F -> F -> F) (add' : F' -> F' -> F') (z inf : F) (z' inf' : F') (f : F -> F') (n : nat) (edges : list (nat * nat * F)) sp sp',
  change_of_units add z inf add' z' inf' f ->
  (N.of_nat n < 65536)%N -> nonneg_add add z -> nonneg_add add' z' -> weighted_digraph n z edges -> no_overflow add z inf edges ->
  shortest_path_library add z n sp -> shortest_path_library add' z' n sp' ->
  exists M : nat, forall fuel fuel', M < fuel -> M < fuel' ->
  exists (b0 b1 : nat) prs prs',
    grpph_py HI fuel z inf sp n edges = Ok ([repeat z b0; repeat z b1], [[]; prs]) /\
    grpph_py HI' fuel' z' inf' sp' n (convert f edges) = Ok ([repeat z' b0; repeat z' b1], [[]; prs']) /\
    Permutation (map (fun p => (f (fst p), f (snd p))) prs) prs'.
Proof.
  intros HI HI' F F' add add' z inf z' inf' f n edges sp sp' Hf Hn Hadd Hadd' Hw Hov Hlib Hlib'. destruct (Datatypes.id Hf) as (H1 & H2 & H3 & H4).
  destruct (@C92_two_arithmetics HI HI' F F' add add' z inf z' inf' n edges (convert f edges) sp sp' (fun a b => ole (f a) b) (fun b a => ole b (f a))) as (M & HM); auto.
  - now apply (convert_digraph Hf).
  - now apply (convert_no_overflow Hf).
  - intros e. unfold convert. rewrite map_map. reflexivity.
  - split; [|split].
    + intros a b a' b' Ha Hb H. apply (convert_ole Hf) in Ha. eapply ole_trans; [exact Ha|]. eapply ole_trans; eauto.
    + rewrite H3. apply ole_refl.
    + intros a Ha. rewrite <- H3 in Ha. now apply (convert_ole Hf) in Ha.
  - split; [|split].
    + intros a b a' b' Ha Hb H. apply (convert_ole Hf) in Hb. eapply ole_trans; [exact Ha|]. eapply ole_trans; eauto.
    + rewrite H3. apply ole_refl.
    + intros a Ha. now rewrite H3 in Ha.
  - intros x y l' _ Hl. apply (convert_walk_back _ Hf) in Hl. destruct Hl as (d & -> & Hd). exists d. split; auto. apply ole_refl.
  - intros x y l _ Hl. exists (f l). split; [now apply (convert_walk Hf)|]. apply ole_refl.
  - exists M. intros fuel fuel' Hf1 Hf2. destruct (HM fuel fuel' Hf1 Hf2) as (b0 & b1 & prs & prs' & E1 & E2 & (L & U & V & Q1 & Q2 & Q3 & Q4 & Q5)).
    exists b0, b1, prs, prs'. split; auto. split; auto.
    destruct U as [|u U]; [|destruct (Q4 u (or_introl eq_refl))]. destruct V as [|v V]; [|destruct (Q5 v (or_introl eq_refl))]. rewrite app_nil_r in Q1, Q2.
    rewrite Q1, Q2, map_map. apply Permutation_refl'. apply map_ext_in. intros [[b d] [b' d']] Hin. destruct (Q3 _ _ Hin) as (A1 & A2 & A3 & A4). cbn [fst snd] in *. subst b b'. rewrite H3. f_equal. now apply ole_antisym.
Qed.
Print Assumptions C111_change_of_units.

(** ** Doubles and powers of two *)
#[local] Instance prec_gt_0_53 : Prec_gt_0 53 := eq_refl.
Lemma round_FLX_scale (r : R) (k : Z) : round radix2 (FLX_exp 53) ZnearestE (r * bpow radix2 k) = (round radix2 (FLX_exp 53) ZnearestE r * bpow radix2 k)%R.
Proof.
  destruct (Req_dec r 0) as [->|Hr]; [rewrite Rmult_0_l, round_0, Rmult_0_l; auto; typeclasses eauto|].
  unfold round, scaled_mantissa, cexp, F2R. cbn [Fnum Fexp]. rewrite (mag_mult_bpow radix2 r k Hr).
  assert (E : FLX_exp 53 (mag radix2 r + k) = (FLX_exp 53 (mag radix2 r) + k)%Z) by (unfold FLX_exp; lia). rewrite E.
  rewrite Rmult_assoc, <- bpow_plus. replace (k + - (FLX_exp 53 (mag radix2 r) + k))%Z with (- FLX_exp 53 (mag radix2 r))%Z by lia.
  rewrite bpow_plus. ring.
Qed.
Lemma rnd_scale (x y : R) (k : Z) : (0 <= k)%Z -> generic_format radix2 (FLT_exp (-1074) 53) x -> generic_format radix2 (FLT_exp (-1074) 53) y -> (0 <= x)%R -> (0 <= y)%R ->
  rnd ((x + y) * bpow radix2 k) = (rnd (x + y) * bpow radix2 k)%R.
Proof.
  intros Hk Fx Fy Hx Hy. assert (Er : forall r, rnd r = round radix2 (FLT_exp (-1074) 53) ZnearestE r) by reflexivity. rewrite (Er ((x + y) * bpow radix2 k)%R), (Er (x + y)%R).
  destruct (Rle_or_lt (x + y) (bpow radix2 (53 + -1074))) as [Hs|Hs].
  - assert (Fs : generic_format radix2 (FLT_exp (-1074) 53) (x + y)) by (apply FLT_format_plus_small; auto; [typeclasses eauto|]; rewrite Rabs_pos_eq by lra; exact Hs).
    rewrite (round_generic radix2 (FLT_exp (-1074) 53) ZnearestE (x + y)%R Fs). apply round_generic; [typeclasses eauto|]. now apply mult_bpow_pos_exact_FLT.
  - assert (H1 : (1 <= bpow radix2 k)%R) by (change 1%R with (bpow radix2 0); now apply bpow_le).
    assert (Hb : (bpow radix2 (-1074 + 53 - 1) <= bpow radix2 (53 + -1074))%R) by (apply bpow_le; lia). pose proof (bpow_gt_0 radix2 (53 + -1074)).
    rewrite !round_FLT_FLX; [apply round_FLX_scale|rewrite Rabs_pos_eq by lra; lra|]. rewrite Rabs_pos_eq by nra. nra.
Qed.
Lemma val_format (x : notnan) : finite x -> generic_format radix2 (FLT_exp (-1074) 53) (val x).
Proof. intros H. unfold val. rewrite (proj1 (valf_finite _ H)). change (FLT_exp (-1074) 53) with (SpecFloat.fexp 53 1024). apply generic_format_B2R. Qed.

(** the second weight is [2^k] times the first; infinite weights stay infinite *)
Definition scaled (k : Z) (w w' : notnan_ord) : Prop := (w = inf64 /\ w' = inf64) \/ (w <> inf64 /\ w' <> inf64 /\ val w' = (val w * bpow radix2 k)%R).
Definition scaled_edges (k : Z) : list (nat * nat * notnan_ord) -> list (nat * nat * notnan_ord) -> Prop := Forall2 (fun e e' => fst e = fst e' /\ scaled k (snd e) (snd e')).

Section Scaled.
  Variables (n : nat) (k : Z) (edges edges' : list (nat * nat * notnan_ord)).
  Hypothesis Hn : (N.of_nat n < 65536)%N.
  Hypothesis Hk : (0 <= k)%Z.
  Hypothesis Hd : double_weights n edges.
  Hypothesis Hd' : double_weights n edges'.
  Hypothesis Hs : scaled_edges k edges edges'.
  Lemma scaled_forth u v w : In (u, v, w) edges -> exists w', In (u, v, w') edges' /\ scaled k w w'.
  Proof.
    pose proof Hs as Hs0. unfold scaled_edges in Hs0. clear - Hs0. induction Hs0 as [|[p a] [p' a'] l l' [E H] _ IH]; intros Hin; [destruct Hin|]. cbn [fst snd] in *. subst p'. destruct Hin as [[= -> ->]|Hin]; [exists a'; split; [now left|auto]|].
    destruct (IH Hin) as (w' & H1 & H2). exists w'. split; [now right|auto].
  Qed.
  Lemma scaled_back u v w' : In (u, v, w') edges' -> exists w, In (u, v, w) edges /\ scaled k w w'.
  Proof.
    pose proof Hs as Hs0. unfold scaled_edges in Hs0. clear - Hs0. induction Hs0 as [|[p a] [p' a'] l l' [E H] _ IH]; intros Hin; [destruct Hin|]. cbn [fst snd] in *. subst p'. destruct Hin as [[= -> ->]|Hin]; [exists a; split; [now left|auto]|].
    destruct (IH Hin) as (w & H1 & H2). exists w. split; [now right|auto].
  Qed.
  Lemma weights_digraph es : double_weights n es -> weighted_digraph (F:=notnan_ord) n zero64 es /\ (forall u v w, In (u, v, w) es -> w = inf64 \/ (val w <= bpow radix2 1007)%R).
  Proof.
    intros H. split; intros u v w Hin; destruct (H _ _ _ Hin) as (H1 & H2 & H3 & H4); auto. split; auto. split; auto. apply ole_val. now rewrite val_zero.
  Qed.
  (** a walk without repeated vertices has at most [n] of them, and no partial sum overflows *)
  Lemma scaled_step l l' d d' w w' :
    finite d -> finite d' -> (0 <= val d <= IZR (Z.of_nat l - 1) * bpow radix2 1007)%R -> (0 <= val d' <= IZR (Z.of_nat l' - 1) * bpow radix2 1007)%R ->
    1 <= l -> 1 <= l' -> (Z.of_nat l < 65536)%Z -> (Z.of_nat l' < 65536)%Z -> finite w -> finite w' -> (0 <= val w <= bpow radix2 1007)%R -> (0 <= val w' <= bpow radix2 1007)%R ->
    val d' = (val d * bpow radix2 k)%R -> val w' = (val w * bpow radix2 k)%R -> val (add64 d' w') = (val (add64 d w) * bpow radix2 k)%R.
  Proof.
    intros Fd Fd' Bd Bd' L L' N N' Fw Fw' Bw Bw' E1 E2.
    destruct (@add64_bound d w (Z.of_nat l - 1) Fd Fw ltac:(lia) Bd Bw) as (_ & R1 & _). destruct (@add64_bound d' w' (Z.of_nat l' - 1) Fd' Fw' ltac:(lia) Bd' Bw') as (_ & R2 & _).
    rewrite R1, R2, E1, E2, <- Rmult_plus_distr_r. apply rnd_scale; auto using val_format; lra.
  Qed.
  Notation vw es := (vwalk (F:=notnan_ord) add64 zero64 (fin_edges es)).
  Lemma scaled_walk x l y d : x < n -> vw edges x l y d -> exists d', vw edges' x l y d' /\ val d' = (val d * bpow radix2 k)%R.
  Proof.
    destruct (weights_digraph Hd) as [Hw Hb]. destruct (weights_digraph Hd') as [Hw' Hb'].
    intros Hx. induction 1 as [|l u y d w Hv IH Ha Hni]; [exists zero64; split; [constructor|rewrite val_zero; lra]|]. destruct IH as (d' & Hv' & E).
    assert (Hl : length (y :: l) <= n) by (eapply (vwalk_short Hn (fin_digraph Hw Hb) Hx); econstructor; eauto). cbn [length] in Hl.
    destruct (proj1 (in_fin edges _ _ _) Ha) as [Ha1 Hne]. destruct (scaled_forth _ _ _ Ha1) as (w' & Ha' & [[? _]|(_ & Hne' & Ew)]); [congruence|].
    assert (Hin' : In (u, y, w') (fin_edges edges')) by (apply in_fin; auto).
    exists (add64 d' w'). split; [econstructor; eauto|]. pose proof (@vwalk_length n Hn _ _ _ _ _ _ _ _ Hv).
    destruct (vwalk64_bound Hn Hw Hb Hv ltac:(lia)) as [Fd Bd]. destruct (vwalk64_bound Hn Hw' Hb' Hv' ltac:(lia)) as [Fd' Bd'].
    destruct (fin_spec Hw Hb _ _ _ Ha) as (_ & _ & Fw & Bw). destruct (fin_spec Hw' Hb' _ _ _ Hin') as (_ & _ & Fw' & Bw').
    apply (@scaled_step (length l) (length l)); auto; lia.
  Qed.
  Lemma scaled_walk_back x l y d' : x < n -> vw edges' x l y d' -> exists d, vw edges x l y d /\ val d' = (val d * bpow radix2 k)%R.
  Proof.
    destruct (weights_digraph Hd) as [Hw Hb]. destruct (weights_digraph Hd') as [Hw' Hb'].
    intros Hx. induction 1 as [|l u y d' w' Hv' IH Ha Hni]; [exists zero64; split; [constructor|rewrite val_zero; lra]|]. destruct IH as (d & Hv & E).
    assert (Hl : length (y :: l) <= n) by (eapply (vwalk_short Hn (fin_digraph Hw' Hb') Hx); econstructor; eauto). cbn [length] in Hl.
    destruct (proj1 (in_fin edges' _ _ _) Ha) as [Ha1 Hne]. destruct (scaled_back _ _ _ Ha1) as (w & Ha' & [[_ ?]|(Hne' & _ & Ew)]); [congruence|].
    assert (Hin' : In (u, y, w) (fin_edges edges)) by (apply in_fin; auto).
    exists (add64 d w). split; [econstructor; eauto|]. pose proof (@vwalk_length n Hn _ _ _ _ _ _ _ _ Hv).
    destruct (vwalk64_bound Hn Hw Hb Hv ltac:(lia)) as [Fd Bd]. destruct (vwalk64_bound Hn Hw' Hb' Hv' ltac:(lia)) as [Fd' Bd'].
    destruct (fin_spec Hw Hb _ _ _ Hin') as (_ & _ & Fw & Bw). destruct (fin_spec Hw' Hb' _ _ _ Ha) as (_ & _ & Fw' & Bw').
    apply (@scaled_step (length l) (length l)); auto; lia.
  Qed.
End Scaled.

(** On doubles: multiplying every weight by [2^k] multiplies every death by [2^k], exactly, whatever the roundings of the two runs, as long as no weight leaves the range up to
    2^1007. *)
Theorem C111_double_units :
  forall (HI HI' : heaps) (n : nat) (k : Z) (edges edges' : list (nat * nat * notnan_ord)) sp sp',
  (N.of_nat n < 65536)%N -> (0 <= k)%Z -> double_weights n edges -> double_weights n edges' -> scaled_edges k edges edges' ->
  shortest_path_library (F:=notnan_ord) add64 zero64 n sp -> shortest_path_library (F:=notnan_ord) add64 zero64 n sp' ->
  exists M : nat, forall fuel fuel', M < fuel -> M < fuel' -> exists ess prs prs',
    grpph_py (F:=notnan_ord) HI fuel zero64 inf64 sp n edges = Ok (ess, [[]; prs]) /\
    grpph_py (F:=notnan_ord) HI' fuel' zero64 inf64 sp' n edges' = Ok (ess, [[]; prs']) /\
    Permutation (map (fun p => (val (fst p) * bpow radix2 k, val (snd p) * bpow radix2 k)%R) prs) (map (fun p => (val (fst p), val (snd p))) prs').
Proof.
  intros HI HI' n k edges edges' sp sp' Hn Hk Hd Hd' Hs Hlib Hlib'.
  destruct (weights_digraph Hd) as [Hw Hb]. destruct (weights_digraph Hd') as [Hw' Hb']. pose proof (bpow_gt_0 radix2 k) as Hp.
  assert (Hlt : forall es x y d, weighted_digraph (F:=notnan_ord) n zero64 es -> x <> y -> walk (F:=notnan_ord) add64 zero64 (edge_of es) x y d -> x < n).
  { intros es x y d H Hne Hv. induction Hv as [|u y d w Hv IH Ha]; [congruence|]. destruct (Nat.eq_dec x u) as [<-|]; auto. apply (H _ _ _ Ha). }
  destruct (@C92_two_arithmetics HI HI' notnan_ord notnan_ord add64 add64 zero64 inf64 zero64 inf64 n edges edges' sp sp'
    (fun a b => val a * bpow radix2 k <= val b)%R (fun b a => val b <= val a * bpow radix2 k)%R) as (M & HM); auto using add64_nonneg.
  - exact (no_overflow64 Hn Hw Hb).
  - exact (no_overflow64 Hn Hw' Hb').
  - intros [u v]. rewrite !in_map_iff. split; intros ([[a b] w] & [= -> ->] & Hin).
    + destruct (scaled_forth Hs _ _ _ Hin) as (w' & H & _). exists (u, v, w'). auto.
    + destruct (scaled_back Hs _ _ _ Hin) as (w' & H & _). exists (u, v, w'). auto.
  - split; [|split].
    + intros a b a' b' Ha Hb0 H. apply ole_val in Ha, Hb0. nra.
    + rewrite val_zero. lra.
    + intros a Ha. apply ole_val. rewrite val_zero in *. nra.
  - split; [|split].
    + intros a b a' b' Ha Hb0 H. apply ole_val in Ha, Hb0. nra.
    + rewrite val_zero. lra.
    + intros a Ha. apply ole_val. rewrite val_zero in *. nra.
  - intros x y r Hne Hv. apply (@walk_arcs notnan_ord _ _ _ _ (fun u v w => proj1 (fin_arc edges' u v w))) in Hv.
    destruct (walk_vwalk add64_nonneg add64_monotone (fin_digraph Hw' Hb') Hv) as (l & r' & Hv1 & Hle). pose proof (Hlt _ _ _ _ (fin_digraph Hw' Hb') Hne Hv) as Hx.
    destruct (scaled_walk_back Hn Hk Hd Hd' Hs Hx Hv1) as (d & Hv2 & E). exists d. split; [apply (@walk_arcs notnan_ord _ _ _ _ (fun u v w => proj2 (fin_arc edges u v w))), (vwalk_walk Hv2)|].
    apply ole_val in Hle. lra.
  - intros x y r Hne Hv. apply (@walk_arcs notnan_ord _ _ _ _ (fun u v w => proj1 (fin_arc edges u v w))) in Hv.
    destruct (walk_vwalk add64_nonneg add64_monotone (fin_digraph Hw Hb) Hv) as (l & r' & Hv1 & Hle). pose proof (Hlt _ _ _ _ (fin_digraph Hw Hb) Hne Hv) as Hx.
    destruct (scaled_walk Hn Hk Hd Hd' Hs Hx Hv1) as (d & Hv2 & E). exists d. split; [apply (@walk_arcs notnan_ord _ _ _ _ (fun u v w => proj2 (fin_arc edges' u v w))), (vwalk_walk Hv2)|].
    apply ole_val in Hle. nra.
  - exists M. intros fuel fuel' Hf1 Hf2. destruct (HM fuel fuel' Hf1 Hf2) as (b0 & b1 & prs & prs' & E1 & E2 & (L & U & V & Q1 & Q2 & Q3 & Q4 & Q5)).
    eexists _, prs, prs'. split; [exact E1|]. split; [exact E2|].
    destruct U as [|u U]; [|destruct (Q4 u (or_introl eq_refl))]. destruct V as [|v V]; [|destruct (Q5 v (or_introl eq_refl))]. rewrite app_nil_r in Q1, Q2.
    rewrite Q1, Q2, !map_map. apply Permutation_refl'. apply map_ext_in. intros [[b d] [b' d']] Hin. destruct (Q3 _ _ Hin) as (A1 & A2 & A3 & A4). cbn [fst snd] in *. subst b b'.
    rewrite val_zero. f_equal; lra.
Qed.
Print Assumptions C111_double_units.

(** The triangle of C93 in units of one half: 0.1, 0.2 and 1.0 become 0.2, 0.4 and 2.0; the bar that ended at 0.30000000000000004 (the rounded sum) ends at 0.6000000000000001.
    And a digraph with integer weights, in units of one third. *)
Definition d04 : notnan := @d64 7205759403792794 (-54) eq_refl. (* 0.4 *)
Definition d06 : notnan := @d64 5404319552844596 (-53) eq_refl. (* 0.6000000000000001 *)
Lemma val_d64 m e Hb : val (@d64 m e Hb) = (IZR (Z.pos m) * bpow radix2 e)%R.
Proof. unfold val. cbn [float_of d64 proj1_sig valf B2R cond_Zopp]. reflexivity. Qed.
Example C111_ex :
  let edges := [(0, 1, d01); (1, 2, d02); (0, 2, d1); (2, 0, inf64)] : list (nat * nat * notnan_ord) in
  let edges' := [(0, 1, d02); (1, 2, d04); (0, 2, d2); (2, 0, inf64)] : list (nat * nat * notnan_ord) in
  let run es := grpph_py (F:=notnan_ord) list_heaps 40 zero64 inf64 (dijkstra_sp (F:=notnan_ord) add64 zero64 [] scored_push scored_pop out_edges) 3 es in
  let shown r := match r with Ok (e, p) => Some (map (map sf) e, map (map (fun q => (sf (fst q), sf (snd q)))) p) | _ => None end in
  double_weights 3 edges /\ double_weights 3 edges' /\ scaled_edges 1 edges edges' /\
  shown (run edges) = Some ([[sf zero64]; [sf zero64]], [[]; [(sf zero64, sf d03)]]) /\
  shown (run edges') = Some ([[sf zero64]; [sf zero64]], [[]; [(sf zero64, sf d06)]]) /\ val d06 = (val d03 * bpow radix2 1)%R.
Proof.
  cbv zeta.
  assert (Hne : forall m e Hb, @d64 m e Hb <> inf64) by (intros m e Hb E; apply (f_equal float_of) in E; discriminate).
  assert (Hs : forall m e Hb Hb', scaled 1 (@d64 m e Hb) (@d64 m (e + 1) Hb')) by (intros m e Hb Hb'; right; split; [apply Hne|]; split; [apply Hne|]; rewrite !val_d64, bpow_plus; ring).
  assert (Hd : forall m e Hb, (Z.pos m <= 2 ^ 53)%Z -> (e <= 0)%Z -> (0 <= val (@d64 m e Hb))%R /\ (@d64 m e Hb = inf64 \/ (val (@d64 m e Hb) <= bpow radix2 1007)%R)).
  { intros m e Hb Hm He. rewrite val_d64. assert (B1 : (1 <= IZR (Z.pos m) <= bpow radix2 53)%R) by (change (bpow radix2 53) with (IZR (2 ^ 53)); split; apply IZR_le; lia).
    pose proof (bpow_gt_0 radix2 e). assert (B2 : (bpow radix2 e <= 1)%R) by (change 1%R with (bpow radix2 0); now apply bpow_le). assert (B3 : (bpow radix2 53 <= bpow radix2 1007)%R) by (apply bpow_le; lia).
    split; [nra|]. right. apply Rle_trans with (bpow radix2 53 * 1)%R; [|lra]. apply Rmult_le_compat; lra. }
  assert (Hi : (0 <= val inf64)%R /\ (inf64 = inf64 \/ (val inf64 <= bpow radix2 1007)%R)) by (rewrite val_inf; pose proof top_pos; split; [lra|auto]).
  split; [|split; [|split; [|split; [vm_compute; reflexivity|split; [vm_compute; reflexivity|]]]]].
  - intros u v w Hin. simpl in Hin. destruct Hin as [[= <- <- <-]|[[= <- <- <-]|[[= <- <- <-]|[[= <- <- <-]|[]]]]]; (split; [lia|]); (split; [lia|]); first [exact Hi|apply Hd; lia].
  - intros u v w Hin. simpl in Hin. destruct Hin as [[= <- <- <-]|[[= <- <- <-]|[[= <- <- <-]|[[= <- <- <-]|[]]]]]; (split; [lia|]); (split; [lia|]); first [exact Hi|apply Hd; lia].
  - apply Forall2_cons; [split; [reflexivity|apply (Hs _ (-56)%Z)]|]. apply Forall2_cons; [split; [reflexivity|apply (Hs _ (-55)%Z)]|]. apply Forall2_cons; [split; [reflexivity|apply (Hs _ (-52)%Z)]|].
    apply Forall2_cons; [split; [reflexivity|left; auto]|constructor].
  - unfold d06, d03. rewrite !val_d64. change (-53)%Z with (-54 + 1)%Z. rewrite bpow_plus. ring.
Qed.
Example C111_ex_integers :
  let edges := [(0, 1, 1); (1, 2, 2); (0, 2, 4); (2, 3, 1); (1, 3, 5)] : list (nat * nat * nat_ord) in
  change_of_units (F:=nat_ord) (F':=nat_ord) Nat.add 0 1000 Nat.add 0 3000 (fun x : nat => 3 * x) /\
  grpph_py (F:=nat_ord) list_heaps 40 0 1000 (fun e => bellman (F:=nat_ord) Nat.add 0 e 4) 4 edges = Ok ([[0]; []], [[]; [(0, 3); (0, 3)]]) /\
  grpph_py (F:=nat_ord) list_heaps 40 0 3000 (fun e => bellman (F:=nat_ord) Nat.add 0 e 4) 4 (convert (fun x : nat_ord => (3 * x : nat) : nat_ord) edges) = Ok ([[0]; []], [[]; [(0, 9); (0, 9)]]).
Proof.
  cbv zeta. split; [|split; vm_compute; reflexivity]. split; [|split; [|split; [reflexivity|vm_compute; reflexivity]]].
  - intros a b. cbn [cmp nat_ord]. destruct (Nat.compare_spec a b) as [->|H|H]; [apply Nat.compare_refl|apply Nat.compare_lt_iff; lia|apply Nat.compare_gt_iff; lia].
  - intros a b. lia.
Qed.
