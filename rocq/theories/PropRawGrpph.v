(** Property theorems C103: grpph on raw doubles - NaN, -0.0 and infinite weights. *)
From Coq Require Import Permutation ZArith Reals Lia Lra Arith.
From Coq Require Import Floats.SpecFloat.
From Flocq Require Import Core BinarySingleNaN Plus_error.
From Verif Require Import Base Fields FieldsFacts Columns Matrices Reduction Spec SpecWeighted SpecGrpph Grpph Dijkstra ShortestPaths SpecBottleneck Examples PropStability Float64 DoubleWalks PropDouble StdHeap PropDijkstra RawGrpph.
Set Implicit Arguments.
#[local] Existing Instance prec_gt_0_53.
#[local] Existing Instance prec_lt_emax_1024.


(** what a raw weight counts as: NaN as infinity, -0.0 as 0, every other weight as itself *)
Definition weight_of (w : f64) : notnan := match not_nan w with Some x => x | None => inf64 end.
Definition weights_of (edges : list (nat * nat * f64)) : list (nat * nat * notnan_ord) := map (fun e => (fst (fst e), snd (fst e), weight_of (snd e) : notnan_ord)) edges.
(** no weight is minus infinity *)
Definition no_neg_inf (edges : list (nat * nat * f64)) : Prop := forall u v w, In (u, v, w) edges -> w <> Inf true.
(** petgraph's dijkstra on [NotNan] weights, in the order of petgraph's adjacency lists *)
Definition petgraph_sp : list (nat * nat * notnan_ord) -> nat -> nat -> option notnan_ord := dijkstra_sp (F:=notnan_ord) add64 zero64 [] scored_push scored_pop graph_edges.

(** ** Comparisons and sums of [NotNan]s are those of the doubles inside *)
Lemma raw_lt_float (x y : notnan_ord) : raw_lt (float_of x) (float_of y) = oltb x y.
Proof. unfold raw_lt, oltb. cbn [cmp notnan_ord]. unfold notnan_cmp. rewrite compare_val by apply float_not_nan. now destruct (Rcompare _ _). Qed.
Lemma raw_eq_float (x y : notnan_ord) : raw_eq (float_of x) (float_of y) = match cmp x y with Eq => true | _ => false end.
Proof. unfold raw_eq. cbn [cmp notnan_ord]. unfold notnan_cmp. rewrite compare_val by apply float_not_nan. now destruct (Rcompare _ _). Qed.
Definition lift (p : notnan_ord * nat) : f64 * nat := (float_of (fst p), snd p).
Lemma min_scored_float (x y : notnan_ord * nat) : raw_min_scored (lift x) (lift y) = min_scored x y.
Proof.
  destruct x as [x u], y as [y v]. unfold raw_min_scored, min_scored, lift. cbn [fst snd]. rewrite raw_eq_float, !raw_lt_float. unfold oltb. rewrite (@cmp_opp notnan_ord x y). destruct (cmp x y); reflexivity.
Qed.
Lemma float_or_nan (x : f64) : proper_f64 x = true -> float_of (or_nan x) = x.
Proof. destruct x as [[]|[]| |]; try discriminate; reflexivity. Qed.
(** a sum is -0.0 only if both summands are *)
Lemma plus_proper (d : notnan) (w : f64) : is_nan w = false -> w <> Inf true -> w <> Inf false -> proper_f64 (Bplus mode_NE (float_of d) w) = true.
Proof.
  intros Hn Hi Hi'. destruct d as [d Hd]. cbn [float_of proj1_sig]. destruct d as [[]|s| |s m e Hb]; try discriminate.
  - destruct w as [[]|[]| |s' m' e' Hb']; try reflexivity; try discriminate; congruence.
  - destruct w as [[]|[]| |s' m' e' Hb']; try discriminate; try congruence; destruct s; reflexivity.
  - destruct w as [s'|[]| |s' m' e' Hb']; try discriminate; try congruence; [reflexivity|].
    set (x := B754_finite s m e Hb). set (y := B754_finite s' m' e' Hb'). destruct (plus_val x y eq_refl eq_refl) as [Hnan Ev].
    pose proof (Bplus_correct 53 1024 _ _ mode_NE x y eq_refl eq_refl) as H. destruct (Rlt_bool _ _).
    + destruct H as (E & Hf & Hs). destruct (Bplus mode_NE x y) as [[]| | |]; try discriminate; auto. exfalso. cbn [B2R Bsign] in E, Hs.
      assert (Hz : (B2R x + B2R y = 0)%R).
      { symmetry in E. change (round_mode mode_NE) with ZnearestE in E. apply (@round_plus_eq_0 radix2 (fexp 53 1024) (FLT_exp_valid (3 - 1024 - 53) 53)) in E; auto; try typeclasses eauto; apply generic_format_B2R. }
      rewrite Rcompare_Eq in Hs by exact Hz. destruct s, s'; try discriminate. assert (B2R x < 0)%R by (apply F2R_lt_0; reflexivity). assert (B2R y < 0)%R by (apply F2R_lt_0; reflexivity). lra.
    + destruct H as [E _]. destruct (Bplus mode_NE x y) as [|[]| |]; try discriminate; auto.
Qed.
Lemma add_float (d : notnan) (w : f64) : is_nan w = false -> w <> Inf true -> w <> Inf false -> raw_add (float_of d) w = float_of (add64 d (weight_of w)).
Proof.
  intros Hn Hi Hi'. unfold raw_add, add64.
  assert (E : Bplus mode_NE (float_of d) (float_of (weight_of w)) = Bplus mode_NE (float_of d) w).
  { destruct w as [[]|[]| |s' m' e' Hb']; try reflexivity; try discriminate. destruct d as [d Hd]. cbn [float_of proj1_sig weight_of not_nan]. destruct d as [[]|[]| |]; try discriminate; reflexivity. }
  rewrite E. symmetry. apply float_or_nan. now apply plus_proper.
Qed.

(** ** The raw run of Dijkstra is the run on [NotNan]s *)
Definition ok_weight (w : f64) : Prop := is_nan w = false /\ w <> Inf true /\ w <> Inf false.
Definition sim (rs : rstate) (s : @dstate notnan_ord (list (notnan_ord * nat))) : Prop :=
  (forall v, rscores rs v = option_map float_of (scores s v)) /\ rvisited rs = visited s /\ rqueue rs = map lift (queue s).
Notation relax64 := (relax (F:=notnan_ord) add64 scored_push).
Notation loop64 := (dijkstra_loop (F:=notnan_ord) add64 scored_push scored_pop).
Lemma push_lift e l : ah_push raw_min_scored (lift e) (map lift l) = map lift (scored_push e l).
Proof. unfold scored_push. apply push_map. exact min_scored_float. Qed.
Lemma visited_sim rs s v : sim rs s -> is_rvisited rs v = is_visited s v.
Proof. intros (_ & H & _). unfold is_rvisited, is_visited. now rewrite H. Qed.
Lemma relax_sim rs s d v w : sim rs s -> ok_weight w -> sim (raw_relax (float_of d) rs (v, w)) (relax64 d s (v, weight_of w)).
Proof.
  intros Hs (W1 & W2 & W3). unfold raw_relax, relax. cbn [fst snd]. rewrite (visited_sim v Hs). destruct (is_visited s v); auto. destruct Hs as (H1 & H2 & H3). rewrite H1. rewrite (add_float d W1 W2 W3).
  set (x := add64 d (weight_of w)).
  assert (Hnew : sim (RState (set_rscore (rscores rs) v (float_of x)) (rvisited rs) (ah_push raw_min_scored (float_of x, v) (rqueue rs)))
                     (DState (set_score (scores s) v (x : notnan_ord)) (visited s) (scored_push (x : notnan_ord, v) (queue s)))).
  { split; [|split]; cbn [rscores rvisited rqueue scores visited queue]; auto.
    - intros u. unfold set_rscore, set_score. destruct (u =? v); auto.
    - rewrite H3, <- push_lift. reflexivity. }
  destruct (scores s v) as [old|]; cbn [option_map]; [|exact Hnew]. rewrite (raw_lt_float x old). destruct (oltb (x : notnan_ord) old); [exact Hnew|]. split; auto.
Qed.
Definition lower (e : nat * f64) : nat * notnan_ord := (fst e, weight_of (snd e)).
Lemma relax_all_sim d es : (forall v w, In (v, w) es -> ok_weight w) -> forall rs s, sim rs s -> sim (fold_left (raw_relax (float_of d)) es rs) (fold_left (relax64 d) (map lower es) s).
Proof.
  induction es as [|[v w] es IH]; intros Hok rs s Hs; cbn [fold_left map]; auto. apply IH; [intros; eapply Hok; right; eauto|]. apply relax_sim; auto. apply (Hok v w). now left.
Qed.
Lemma loop_sim (adj : nat -> list (nat * f64)) (adj' : nat -> list (nat * notnan_ord)) :
  (forall u v w, In (v, w) (adj u) -> ok_weight w) -> (forall u, adj' u = map lower (adj u)) ->
  forall fuel rs s, sim rs s -> match loop64 adj' fuel s with
                                | Ok s' => exists rs', raw_loop adj fuel rs = Ok rs' /\ sim rs' s'
                                | NoFuel => raw_loop adj fuel rs = NoFuel
                                | Panic => False
                                end.
Proof.
  intros Hok Hadj. induction fuel as [|fuel IH]; intros rs s Hs; cbn [dijkstra_loop raw_loop]; auto. pose proof Hs as (H1 & H2 & H3).
  rewrite H3, (pop_map (@min_scored notnan_ord) raw_min_scored lift min_scored_float). unfold scored_pop at 1. destruct (ah_pop (@min_scored notnan_ord) (queue s)) as [[[d u] q]|]; cbn [option_map]; [|eauto].
  cbn [lift fst snd]. assert (Hs1 : sim (RState (rscores rs) (rvisited rs) (map lift q)) (DState (scores s) (visited s) q)) by (split; [|split]; auto).
  rewrite (visited_sim u Hs1). destruct (is_visited (DState (scores s) (visited s) q) u); [apply IH; auto|]. apply IH. rewrite Hadj.
  destruct (@relax_all_sim d (adj u) (fun v w => Hok u v w) _ _ Hs1) as (R1 & R2 & R3). split; [|split]; cbn [mark rscores rvisited rqueue scores visited queue]; auto. now rewrite R2.
Qed.

Lemma start_sim x : sim (raw_start x) (dijkstra_start (F:=notnan_ord) zero64 [] scored_push x).
Proof.
  split; [|split]; cbn [raw_start dijkstra_start rscores rvisited rqueue scores visited queue]; auto. intros v. unfold set_rscore, set_score. now destruct (v =? x).
Qed.
Lemma graph_edges_adjacency {F : ordT} (edges : list (nat * nat * F)) : adjacency edges (graph_edges edges).
Proof. intros u. unfold graph_edges. apply Permutation_sym, Permutation_rev. Qed.
Lemma graph_edges_lower edges u : graph_edges (weights_of edges) u = map lower (graph_edges edges u).
Proof.
  unfold graph_edges. rewrite map_rev. f_equal. induction edges as [|[[a b] w] edges IH]; cbn [weights_of map filter fst snd]; auto. destruct (a =? u); cbn [map fst snd]; [|exact IH]. f_equal. exact IH.
Qed.
Lemma in_graph_edges {A} (edges : list (nat * nat * A)) u v w : In (v, w) (graph_edges edges u) -> In (u, v, w) edges.
Proof.
  unfold graph_edges. intros H. apply in_rev, in_map_iff in H. destruct H as ([[a b] c] & [= <- <-] & H). apply filter_In in H. destruct H as [H E]. cbn [fst snd] in *. apply Nat.eqb_eq in E. now subst a.
Qed.
Lemma finite_weights edges : finite_edges (F:=notnan_ord) inf64 (weights_of edges) = weights_of (raw_finite_edges edges).
Proof.
  unfold finite_edges, raw_finite_edges, weights_of. induction edges as [|[[a b] w] edges IH]; cbn [map filter fst snd]; auto.
  assert (E : oltb (weight_of w : notnan_ord) (inf64 : notnan_ord) = raw_lt w (Inf false)).
  { rewrite <- raw_lt_float. destruct w as [[]|[]| |]; reflexivity. }
  rewrite E. destruct (raw_lt w (Inf false)); cbn [map fst snd]; now rewrite IH.
Qed.
Lemma raw_finite_ok edges u v w : no_neg_inf edges -> In (u, v, w) (raw_finite_edges edges) -> ok_weight w.
Proof.
  intros Hn H. apply filter_In in H. destruct H as [Hin E]. cbn [snd] in E. split; [|split].
  - destruct w; auto; discriminate.
  - exact (Hn _ _ _ Hin).
  - intros ->. discriminate.
Qed.
Lemma raw_dijkstra_sim edges x : no_neg_inf edges -> let g := raw_finite_edges edges in exists dist, raw_dijkstra (graph_edges g) (S (S (length g))) x = Ok dist /\
  forall y, dist y = option_map float_of (petgraph_sp (finite_edges (F:=notnan_ord) inf64 (weights_of edges)) x y).
Proof.
  intros Hn g. rewrite finite_weights. fold g. unfold petgraph_sp, dijkstra_sp. replace (length (weights_of g)) with (length g) by (unfold weights_of; now rewrite map_length).
  destruct (@C98_any_weights notnan_ord _ add64 zero64 [] scored_push scored_pop (weights_of g) (graph_edges (weights_of g)) x (S (S (length g))) (C97_std_queue notnan_ord) (graph_edges_adjacency _)) as (dist & E & _).
  { unfold weights_of. rewrite map_length. lia. }
  rewrite E. unfold dijkstra in E. unfold raw_dijkstra.
  pose proof (@loop_sim (graph_edges g) (graph_edges (weights_of g)) (fun u v w H => raw_finite_ok u v w Hn (in_graph_edges _ _ _ _ H)) (graph_edges_lower g) (S (S (length g))) _ _ (start_sim x)) as H.
  match type of E with bind ?m _ = _ => destruct m as [s| |]; try discriminate end. cbn [bind] in E. injection E as <-. destruct H as (rs & -> & H1 & _). cbn [bind]. exists (rscores rs). auto.
Qed.
Lemma not_nan_float (x : notnan) : not_nan (float_of x) = Some x.
Proof. destruct x as [[[]|[]| |] H]; try discriminate; cbn [float_of proj1_sig not_nan]; apply (f_equal (@Some notnan)); now apply notnan_eq. Qed.

Lemma mapM_total {A B} (f : A -> res B) (g : A -> B) l : (forall x, In x l -> f x = Ok (g x)) -> mapM f l = Ok (map g l).
Proof. induction l as [|a l IH]; intros H; cbn [mapM map]; auto. rewrite (H a (or_introl eq_refl)). cbn [bind]. rewrite IH by (intros; apply H; now right). reflexivity. Qed.
Lemma raw_filtration edges n : no_neg_inf edges ->
  raw_build_filtration n edges = Ok (build_filtration (F:=notnan_ord) n (petgraph_sp (finite_edges (F:=notnan_ord) inf64 (weights_of edges)))).
Proof.
  intros Hn. unfold raw_build_filtration, build_filtration. cbv zeta. apply mapM_total. intros i _. destruct (raw_dijkstra_sim i Hn) as (dist & E & H). cbv zeta in E. rewrite E. cbn [bind].
  apply mapM_total. intros j _. destruct (i =? j); auto. rewrite H. destruct (petgraph_sp _ i j) as [x|]; cbn [option_map]; auto. now rewrite not_nan_float.
Qed.
Lemma raw_edges edges : raw_edge_set edges = build_edge_set (weights_of edges).
Proof.
  unfold raw_edge_set, build_edge_set, weights_of. generalize (@nil edge_ord). induction edges as [|e edges IH]; intros s; cbn [fold_left map fst snd]; auto.
Qed.

(** ** C103: grpph on raw doubles, none of them minus infinity, is grpph on [NotNan] weights with NaN counted as infinity and -0.0 as 0: it never panics on a NaN, and it returns the
    same bars and representatives *)
Theorem C103_raw_doubles :
  forall (HI : heaps) (fuel n : nat) (edges : list (nat * nat * f64)), no_neg_inf edges ->
  raw_grpph HI fuel n edges = grpph_py (F:=notnan_ord) HI fuel zero64 inf64 petgraph_sp n (weights_of edges) /\
  raw_grpph_with_involution HI fuel n edges = grpph_with_involution_py (F:=notnan_ord) HI fuel zero64 inf64 petgraph_sp n (weights_of edges).
Proof.
  intros HI fuel n edges Hn. unfold raw_grpph, raw_grpph_with_involution, grpph_py, grpph_with_involution_py, grpph, grpph_with_involution. rewrite (raw_filtration n Hn), raw_edges. cbn [bind]. split; reflexivity.
Qed.
Print Assumptions C103_raw_doubles.

(** raw weights that are NaN, infinite, or between -0.0 and 2^1007 *)
Definition raw_weights (n : nat) (edges : list (nat * nat * f64)) : Prop :=
  forall u v w, In (u, v, w) edges -> u < n /\ v < n /\ (w = NaN \/ w = Inf false \/ is_finite w = true /\ (0 <= B2R w <= bpow radix2 1007)%R).
(** [C99] for raw doubles: the bars are those of the exact real shortest-path filtration up to rounding *)
Theorem C103_raw_bars :
  forall (HI : heaps) (n : nat) (edges : list (nat * nat * f64)),
  (N.of_nat n < 65536)%N -> raw_weights n edges ->
  exists b0 b1 exact, exact_diagram n (weights_of edges) b0 b1 exact /\
  exists N : nat, forall fuel, N < fuel -> exists prs,
    raw_grpph HI fuel n edges = Ok ([repeat (zero64 : notnan_ord) b0; repeat (zero64 : notnan_ord) b1], [[]; prs]) /\
    matching (same_bar ((1 + bpow radix2 (-53)) ^ (n - 2))%R) (fun _ => False) (fun _ => False) prs exact.
Proof.
  intros HI n edges Hn Hw. destruct (@C99_grpph_dijkstra HI n (weights_of edges) graph_edges Hn) as (b0 & b1 & exact & H1 & N & H2).
  - intros u v w Hin. apply in_map_iff in Hin. destruct Hin as ([[a b] r] & [= <- <- <-] & Hin). destruct (Hw _ _ _ Hin) as (Ha & Hb & Hr). split; auto. split; auto. pose proof top_pos. cbn [fst snd].
    destruct Hr as [->|[->|[Hf Hr]]]; [cbn [weight_of not_nan]; rewrite val_inf; split; [lra|auto]|cbn [weight_of not_nan]; split; [unfold val; cbn [float_of proj1_sig valf]; lra|left; now apply notnan_eq]|].
    assert (E : val (weight_of r) = B2R r) by (destruct r; try discriminate; reflexivity). rewrite E. split; [lra|right; lra].
  - intros e. apply graph_edges_adjacency.
  - exists b0, b1, exact. split; auto. exists N. intros fuel Hf. destruct (H2 fuel Hf) as (prs & E & H3). exists prs. split; auto. rewrite (proj1 (@C103_raw_doubles HI fuel n edges ltac:(intros u v w Hin ->; destruct (Hw _ _ _ Hin) as (_ & _ & [|[|[]]]); discriminate))). exact E.
Qed.
Print Assumptions C103_raw_bars.

(** Weights NaN, infinity, -0.0, 1, 2 and 4 on five vertices: no panic, and the bars are those of the weights inf, inf, 0, 1, 2 and 4. *)
Definition raw_ex : list (nat * nat * f64) :=
  [(0, 1, float_of d1); (1, 2, float_of d2); (0, 2, float_of d4); (2, 3, NaN); (3, 0, Inf false); (3, 4, Zero true); (4, 0, NaN)].
Example C103_ex :
  no_neg_inf raw_ex /\ raw_weights 5 raw_ex /\
  match raw_grpph list_heaps 60 5 raw_ex with
  | Ok (e, p) => (map (map sf) e, map (map (fun q => (sf (fst q), sf (snd q)))) p) = ([[sf zero64]; [sf zero64; sf zero64]], [[]; [(sf zero64, sf d3)]])
  | _ => False
  end.
Proof.
  split; [|split; [|vm_compute; reflexivity]].
  - intros u v w Hin. unfold raw_ex in Hin. simpl in Hin. repeat (destruct Hin as [[= <- <- <-]|Hin]; [discriminate|]). destruct Hin.
  - assert (H : forall m e Hb k, Z.pos m = (k * 2 ^ (- e))%Z -> (0 <= k <= 4)%Z -> (e <= 0)%Z -> (0 <= B2R (float_of (@d64 m e Hb)) <= bpow radix2 1007)%R).
    { intros m e Hb k E Hk He. assert (Ev : B2R (float_of (@d64 m e Hb)) = IZR k).
      { cbn [float_of d64 proj1_sig B2R cond_Zopp]. unfold F2R. cbn [Fnum Fexp]. rewrite E, mult_IZR. change (2 ^ (- e))%Z with (Zpower radix2 (- e)). rewrite (IZR_Zpower radix2 (- e)) by lia. rewrite Rmult_assoc, <- bpow_plus. replace (- e + e)%Z with 0%Z by lia. cbn [bpow]. lra. }
      rewrite Ev. split; [apply IZR_le; lia|]. apply Rle_trans with (bpow radix2 2); [|apply bpow_le; lia]. change (bpow radix2 2) with (IZR 4). apply IZR_le. lia. }
    intros u v w Hin. unfold raw_ex in Hin. simpl in Hin.
    destruct Hin as [[= <- <- <-]|[[= <- <- <-]|[[= <- <- <-]|[[= <- <- <-]|[[= <- <- <-]|[[= <- <- <-]|[[= <- <- <-]|[]]]]]]]]; (split; [lia|]); (split; [lia|]); try (now left); try (right; now left); right; right; (split; [reflexivity|]).
    + apply (H _ _ _ 1%Z); [reflexivity|lia|lia].
    + apply (H _ _ _ 2%Z); [reflexivity|lia|lia].
    + apply (H _ _ _ 4%Z); [reflexivity|lia|lia].
    + cbn [B2R]. split; [lra|apply bpow_ge_0].
Qed.
(** With a weight of minus infinity a path length can become NaN: two edges of the largest finite weight overflow to infinity, and infinity plus minus infinity is NaN; then
    [NotNan::new(..).unwrap()] panics, whatever the heap and the fuel. *)
Definition max64 : f64 := float_of (@d64 9007199254740991 971 eq_refl).
Example C103_neg_inf_ex : forall HI fuel, raw_grpph HI fuel 4 [(0, 1, max64); (1, 2, max64); (2, 3, Inf true)] = Panic.
Proof.
  intros HI fuel. assert (E : match raw_build_filtration 4 [(0, 1, max64); (1, 2, max64); (2, 3, Inf true)] with Panic => true | _ => false end = true) by (vm_compute; reflexivity).
  unfold raw_grpph. destruct (raw_build_filtration 4 _); try discriminate. reflexivity.
Qed.
