(** Property theorems C93 and C94: grpph on doubles against the exact diagram over the real numbers. *)
From Verif Require Import Base Fields FieldsFacts Spec LinAlg Columns ColumnsFacts Matrices Reduction SpecPath SpecPH Grpph SpecGrpph GrpphRun Persistence SpecWeighted Weighted WeightedRun ShortestPaths PropWeighted PropStability SpecBottleneck Matching Examples PropGrpphStability PropArithmetics Float64 DoubleWalks.
From Coq Require Import Permutation ZArith Reals Lra Lia Floats.SpecFloat.
From Flocq Require Import Core BinarySingleNaN Plus_error Relative.
Set Implicit Arguments.

(** [exact] are the bars of dimension 1, next to [b0] and [b1] bars without end in dimensions 0 and 1, of the filtration by real shortest-path lengths along the edges of
    finite weight. *)
Definition exact_diagram (n : nat) (edges : list (nat * nat * notnan_ord)) (b0 b1 : nat) (exact : list (R * R)) : Prop :=
  exists time : nat -> nat -> option R,
    shortest_path_filtration (F:=R_ord) Rplus 0%R (real_arc edges) time /\
    (forall birth death, In (birth, death) exact -> birth = 0%R /\ (0 < death)%R) /\
    forall s t : R_ord, ole s t -> forall b,
      (path_betti_0 (K:=Z2_coeff) (F:=R_ord) time n 0%R (map fst edges) s t b <-> b = bars_alive (F:=R_ord) s t (repeat 0%R b0) []) /\
      (path_betti_1 (K:=Z2_coeff) (F:=R_ord) time n 0%R (map fst edges) s t b <-> b = bars_alive (F:=R_ord) s t (repeat 0%R b1) exact).
(** matched bars: both born at 0, deaths equal up to the factor [err] *)
Definition same_bar (err : R) (p : notnan_ord * notnan_ord) (p' : R * R) : Prop :=
  fst p = zero64 /\ fst p' = 0%R /\ (val (snd p) <= snd p' * err)%R /\ (snd p' <= val (snd p) * err)%R.
(** double weights: not negative, and infinite or at most 2^1007 *)
Definition double_weights (n : nat) (edges : list (nat * nat * notnan_ord)) : Prop :=
  forall u v w, In (u, v, w) edges -> u < n /\ v < n /\ (0 <= val w)%R /\ (w = inf64 \/ (val w <= bpow radix2 1007)%R).

Lemma spf_arcs {F : ordT} (add : F -> F -> F) z (a b : nat -> nat -> F -> Prop) time : (forall u v w, a u v w <-> b u v w) ->
  shortest_path_filtration add z a time -> shortest_path_filtration add z b time.
Proof.
  intros H (S1 & S2 & S3). assert (Hab : forall x y d, walk add z a x y d <-> walk add z b x y d) by (intros; split; apply walk_arcs; intros; now apply H).
  split; auto. split.
  - intros x y d E. destruct (S2 _ _ _ E) as [H1 H2]. split; [now apply Hab|]. intros d' Hd. apply H2. now apply Hab.
  - intros x y Hne E d Hd. apply (S3 x y Hne E d). now apply Hab.
Qed.

Lemma double_against_real (HI : heaps) n (edges : list (nat * nat * notnan_ord)) sp (err : R) (P : nat -> notnan -> R -> Prop) :
  (N.of_nat n < 65536)%N -> double_weights n edges -> shortest_path_library (F:=notnan_ord) add64 zero64 n sp -> (1 <= err)%R ->
  P 1 zero64 0%R ->
  (forall k d r u v w, P k d r -> 1 <= k < n -> finite d -> (0 <= val d <= IZR (Z.of_nat k - 1) * bpow radix2 1007)%R -> (0 <= r)%R -> (k = 1 -> d = zero64 /\ r = 0%R) ->
      In (u, v, w) (fin_edges edges) -> val (add64 d w) = rnd (val d + val w) -> P (S k) (add64 d w) (r + val w)%R) ->
  (forall k d r, k <= n -> (0 <= val d)%R -> (0 <= r)%R -> P k d r -> (val d <= r * err)%R /\ (r <= val d * err)%R) ->
  exists b0 b1 exact, exact_diagram n edges b0 b1 exact /\
  exists N : nat, forall fuel, N < fuel -> exists prs,
    grpph_py (F:=notnan_ord) HI fuel zero64 inf64 sp n edges = Ok ([repeat (zero64 : notnan_ord) b0; repeat (zero64 : notnan_ord) b1], [[]; prs]) /\
    matching (same_bar err) (fun _ => False) (fun _ => False) prs exact.
Proof.
  intros Hn Hdw Hlib Herr P1 Pstep Pend.
  assert (Hw : weighted_digraph (F:=notnan_ord) n zero64 edges) by (intros u v w Hin; destruct (Hdw _ _ _ Hin) as (H1 & H2 & H3 & _); split; auto; split; auto; apply ole_val; now rewrite val_zero).
  assert (Hbig : forall u v w, In (u, v, w) edges -> w = inf64 \/ (val w <= bpow radix2 1007)%R) by (intros u v w Hin; apply (Hdw _ _ _ Hin)).
  set (edgesR := val_edges edges).
  pose proof (@bellman_library R_ord Rplus 0%R n R_nonneg_add R_mono) as HlibR. set (spR := fun e => bellman (F:=R_ord) Rplus 0%R e n) in HlibR.
  pose (up := fun (a : notnan_ord) (b : R_ord) => (val a <= b * err)%R). pose (dn := fun (b : R_ord) (a : notnan_ord) => (b <= val a * err)%R).
  assert (Hup : error_bound (zero64 : notnan_ord) (0%R : R_ord) up).
  { split; [|split]; unfold up.
    - intros a b a' b' Ha Hb H. apply ole_val in Ha. apply ole_R in Hb. assert (b * err <= b' * err)%R by (apply Rmult_le_compat_r; [lra|exact Hb]). lra.
    - rewrite val_zero. lra.
    - intros a Ha. apply ole_val. rewrite val_zero. lra. }
  assert (Hdn : error_bound (0%R : R_ord) (zero64 : notnan_ord) dn).
  { split; [|split]; unfold dn.
    - intros a b a' b' Ha Hb H. apply ole_R in Ha. apply ole_val in Hb. assert (val b * err <= val b' * err)%R by (apply Rmult_le_compat_r; [lra|exact Hb]). lra.
    - rewrite val_zero. lra.
    - intros a Ha. apply ole_R. rewrite val_zero in Ha. lra. }
  pose proof (fin_digraph Hw Hbig) as Hfd. pose proof (real_fin_digraph Hw Hbig) as HfR.
  assert (HarcR : forall u v r, finite_edge_of (top : R_ord) edgesR u v r <-> edge_of (val_edges (fin_edges edges)) u v r) by (intros; unfold edgesR; rewrite <- (real_arc_edges Hw); apply (real_arc_fin Hw Hbig)).
  assert (Wup : walks_within (F:=notnan_ord) (F':=R_ord) add64 zero64 inf64 edges Rplus 0%R (top : R_ord) edgesR up).
  { intros x y r Hne Hk. apply (@walk_arcs R_ord _ _ _ _ (fun u v w => proj1 (HarcR u v w))) in Hk. destruct (walk_vwalk R_nonneg_add R_mono HfR Hk) as (l & r' & Hv & Hle).
    assert (Hx : x < n). { clear - HfR Hk Hne. induction Hk as [|u y d w Hk IH Ha]; [congruence|]. destruct (Nat.eq_dec x u) as [<-|]; auto. apply (HfR _ _ _ Ha). }
    destruct (of_real Hn Hw Hbig P P1 Pstep Hx Hv) as (d & Hd & HP). pose proof (vwalk_short Hn HfR Hx Hv) as Hl. destruct (vwalk64_bound Hn Hw Hbig Hd ltac:(lia)) as [_ Bd]. pose proof (vwalkR_bound Hn Hw Hbig Hv) as Br.
    exists d. split; [apply (@walk_arcs notnan_ord _ _ _ _ (fun u v w => proj2 (fin_arc edges u v w))), (vwalk_walk Hd)|]. unfold up. destruct (Pend _ _ _ Hl (proj1 Bd) (proj1 Br) HP) as [H _].
    apply ole_R in Hle. assert (r' * err <= r * err)%R by (apply Rmult_le_compat_r; [lra|exact Hle]). lra. }
  assert (Wdn : walks_within (F:=R_ord) (F':=notnan_ord) Rplus 0%R (top : R_ord) edgesR add64 zero64 inf64 edges dn).
  { intros x y r Hne Hk. apply (@walk_arcs notnan_ord _ _ _ _ (fun u v w => proj1 (fin_arc edges u v w))) in Hk. destruct (walk_vwalk add64_nonneg add64_monotone Hfd Hk) as (l & r' & Hv & Hle).
    assert (Hx : x < n). { clear - Hfd Hk Hne. induction Hk as [|u y d w Hk IH Ha]; [congruence|]. destruct (Nat.eq_dec x u) as [<-|]; auto. apply (Hfd _ _ _ Ha). }
    destruct (to_real Hn Hw Hbig P P1 Pstep Hx Hv) as (d & Hd & HP). pose proof (vwalk_short Hn Hfd Hx Hv) as Hl. destruct (vwalk64_bound Hn Hw Hbig Hv ltac:(lia)) as [_ Bd]. pose proof (vwalkR_bound Hn Hw Hbig Hd) as Br.
    exists d. split; [apply (@walk_arcs R_ord _ _ _ _ (fun u v w => proj2 (HarcR u v w))), (vwalk_walk Hd)|]. unfold dn. destruct (Pend _ _ _ Hl (proj1 Bd) (proj1 Br) HP) as [_ H].
    apply ole_val in Hle. assert (val r' * err <= val r * err)%R by (apply Rmult_le_compat_r; [lra|exact Hle]). lra. }
  assert (Hsame : forall e, In e (map fst edges) <-> In e (map fst edgesR)) by (intros e; unfold edgesR, val_edges; rewrite map_map; reflexivity).
  pose proof (no_overflow64 Hn Hw Hbig) as Hov. pose proof (no_overflowR Hn Hw Hbig) as HovR. pose proof (real_digraph Hw) as HwR.
  destruct (@C92_two_arithmetics HI list_heaps notnan_ord R_ord add64 Rplus zero64 inf64 0%R top n edges edgesR sp spR up dn Hn add64_nonneg Hw Hov Hlib R_nonneg_add HwR HovR HlibR Hsame Hup Hdn Wup Wdn) as (M & HM).
  destruct (@C57_weighted_digraph list_heaps R_ord Rplus 0%R top n edgesR spR Hn HwR R_nonneg_add HovR HlibR) as (time & Hspf & M2 & HM2).
  set (K := S (M + M2)). destruct (HM K K ltac:(unfold K; lia) ltac:(unfold K; lia)) as (b0 & b1 & prs & exact & E1 & E2 & Hmatch).
  destruct (HM2 K ltac:(unfold K; lia)) as (ess0 & ess1 & prs0 & prs1 & E3 & V3 & B3). rewrite E2 in E3. injection E3 as <- <- <- <-.
  exists b0, b1, exact. split.
  - exists time. split; [|split].
    + apply (@spf_arcs R_ord Rplus 0%R (finite_edge_of (top : R_ord) edgesR)); [|exact Hspf]. intros u v w. unfold edgesR. now rewrite <- (real_arc_edges Hw).
    + intros b d Hin. assert (Hb : b = 0%R).
      { destruct Hmatch as (L & U & V & Q1 & Q2 & Q3 & Q4 & Q5). pose proof (Permutation_in _ Q2 Hin) as Hi. apply in_app_iff in Hi. destruct Hi as [Hi|Hi]; [|destruct (Q5 _ Hi)].
        apply in_map_iff in Hi. destruct Hi as ([p p'] & E & Hi). cbn [snd] in E. subst p'. destruct (Q3 _ _ Hi) as (_ & H & _). exact H. }
      split; auto. specialize (V3 b d Hin). apply olt_R in V3. subst b. exact V3.
    + intros s t Hst b. specialize (B3 s t Hst b). unfold edgesR, val_edges in B3. rewrite map_map in B3. exact B3.
  - exists M. intros fuel Hfuel. destruct (HM fuel K Hfuel ltac:(unfold K; lia)) as (b0' & b1' & prs' & exact' & E4 & E5 & Hm'). rewrite E2 in E5. injection E5 as Eb0 Eb1 <-.
    assert (b0' = b0) by (rewrite <- (repeat_length (0%R : R_ord) b0), <- (repeat_length (0%R : R_ord) b0'); congruence).
    assert (b1' = b1) by (rewrite <- (repeat_length (0%R : R_ord) b1), <- (repeat_length (0%R : R_ord) b1'); congruence). subst b0' b1'.
    exists prs'. split; auto.
Qed.

(** ** C93: relative error at most [(1 + 2^-53)^(n-2)] *)
Theorem C93_double_grpph :
  forall (HI : heaps) (n : nat) (edges : list (nat * nat * notnan_ord)) sp,
  (N.of_nat n < 65536)%N -> double_weights n edges -> shortest_path_library (F:=notnan_ord) add64 zero64 n sp ->
  exists b0 b1 exact, exact_diagram n edges b0 b1 exact /\
  exists N : nat, forall fuel, N < fuel -> exists prs,
    grpph_py (F:=notnan_ord) HI fuel zero64 inf64 sp n edges = Ok ([repeat (zero64 : notnan_ord) b0; repeat (zero64 : notnan_ord) b1], [[]; prs]) /\
    matching (same_bar ((1 + bpow radix2 (-53)) ^ (n - 2))) (fun _ => False) (fun _ => False) prs exact.
Proof.
  intros HI n edges sp Hn Hdw Hlib. pose proof (bpow_gt_0 radix2 (-53)) as Hu. set (u := bpow radix2 (-53)) in *.
  assert (Hpow : forall k, (1 <= (1 + u) ^ k)%R) by (intros k; apply pow_R1_Rle; lra).
  assert (Hpos : forall x y w, In (x, y, w) (fin_edges edges) -> finite w /\ (0 <= val w)%R).
  { intros x y w Hin. apply in_fin in Hin. destruct Hin as [Hin Hne]. destruct (Hdw _ _ _ Hin) as (_ & _ & H & _). split; auto. now apply nonneg_finite. }
  apply (@double_against_real HI n edges sp ((1 + u) ^ (n - 2)) (fun k d r => (val d <= r * (1 + u) ^ (k - 2))%R /\ (r <= val d * (1 + u) ^ (k - 2))%R)); auto.
  - rewrite val_zero. lra.
  - intros k d r x y w [H1 H2] Hk Fd Bd Hr H0 Hin E. destruct (Hpos _ _ _ Hin) as [Fw Bw]. destruct (Nat.eq_dec k 1) as [->|Hk1].
    + destruct (H0 eq_refl) as [-> ->]. rewrite add64_zero_l. cbn [Nat.sub]. simpl pow. lra.
    + destruct (rnd_error Fd Fw (proj1 Bd) Bw) as [R1 R2]. fold u in R1, R2. rewrite E. replace (S k - 2) with (S (k - 2)) by lia. cbn [pow]. set (e := ((1 + u) ^ (k - 2))%R) in *. pose proof (Hpow (k - 2)) as He. fold e in He.
      assert (Hwe : (val w <= val w * e)%R) by (rewrite <- (Rmult_1_r (val w)) at 1; now apply Rmult_le_compat_l). split.
      * apply Rle_trans with ((val d + val w) * (1 + u))%R; auto. replace ((r + val w) * ((1 + u) * e))%R with ((r * e + val w * e) * (1 + u))%R by ring. apply Rmult_le_compat_r; lra.
      * apply Rle_trans with ((val d + val w) * e)%R; [lra|]. replace (rnd (val d + val w) * ((1 + u) * e))%R with (rnd (val d + val w) * (1 + u) * e)%R by ring. apply Rmult_le_compat_r; lra.
  - intros k d r Hk Hd Hr [H1 H2]. assert (Hle : ((1 + u) ^ (k - 2) <= (1 + u) ^ (n - 2))%R) by (apply Rle_pow; [lra|lia]).
    split; (eapply Rle_trans; [eassumption|apply Rmult_le_compat_l; auto]).
Qed.
Print Assumptions C93_double_grpph.

(** ** C94: no error at all when the weights are multiples of [2^e] whose sums have at most 53 bits *)
Theorem C94_exact_doubles :
  forall (HI : heaps) (n : nat) (edges : list (nat * nat * notnan_ord)) sp (e m : Z),
  (N.of_nat n < 65536)%N -> shortest_path_library (F:=notnan_ord) add64 zero64 n sp ->
  (-1074 <= e <= 971)%Z -> (0 <= m)%Z -> ((Z.of_nat n - 1) * m <= 2 ^ 53)%Z ->
  (forall u v w, In (u, v, w) edges -> u < n /\ v < n /\ (w = inf64 \/ (val w <= bpow radix2 1007)%R /\ exists k, (0 <= k <= m)%Z /\ val w = (IZR k * bpow radix2 e)%R)) ->
  exists b0 b1 exact, exact_diagram n edges b0 b1 exact /\
  exists N : nat, forall fuel, N < fuel -> exists prs,
    grpph_py (F:=notnan_ord) HI fuel zero64 inf64 sp n edges = Ok ([repeat (zero64 : notnan_ord) b0; repeat (zero64 : notnan_ord) b1], [[]; prs]) /\
    Permutation (map (fun p => (val (fst p), val (snd p))) prs) exact.
Proof.
  intros HI n edges sp e m Hn Hlib He Hm0 Hm Hed. pose proof (bpow_gt_0 radix2 e) as Hbe.
  assert (Hdw : double_weights n edges).
  { intros u v w Hin. destruct (Hed _ _ _ Hin) as (H1 & H2 & H3). split; auto. split; auto. destruct H3 as [->|(Hb & k & Hk & E)]; [rewrite val_inf; pose proof top_pos; split; [lra|auto]|].
    split; auto. rewrite E. apply Rmult_le_pos; [apply IZR_le; lia|lra]. }
  destruct (@double_against_real HI n edges sp 1%R (fun k d r => val d = r /\ exists q, (0 <= q <= (Z.of_nat k - 1) * m)%Z /\ r = (IZR q * bpow radix2 e)%R)) as (b0 & b1 & exact & H1 & N & H2); auto.
  - lra.
  - split; [apply val_zero|]. exists 0%Z. split; [lia|]. lra.
  - intros k d r u v w (E1 & q & Hq & E2) Hk Fd Bd Hr _ Hin E. apply in_fin in Hin. destruct Hin as [Hin Hne]. destruct (Hed _ _ _ Hin) as (_ & _ & [|(_ & k' & Hk' & Ew)]); [congruence|].
    assert (Hq2 : (0 <= q + k' <= (Z.of_nat (S k) - 1) * m)%Z) by nia.
    assert (Es : (r + val w)%R = (IZR (q + k') * bpow radix2 e)%R) by (rewrite E2, Ew, plus_IZR; ring).
    split; [|exists (q + k')%Z; auto]. rewrite E, E1, Es. apply round_generic; [typeclasses eauto|].
    assert (Hle : (q + k' <= 2 ^ 53)%Z) by nia.
    destruct (Z.eq_dec (q + k') (2 ^ 53)) as [->|Hne53].
    + change (IZR (2 ^ 53)) with (bpow radix2 53). rewrite <- bpow_plus. apply generic_format_bpow. unfold fexp, SpecFloat.emin. lia.
    + change (IZR (q + k') * bpow radix2 e)%R with (F2R (Float radix2 (q + k') e)). apply generic_format_F2R. intros Hnz. unfold cexp, fexp. rewrite mag_F2R by exact Hnz.
      assert (mag radix2 (IZR (q + k')) <= 53)%Z; [|unfold SpecFloat.emin; lia].
      apply mag_le_bpow; [now apply IZR_neq|]. rewrite <- abs_IZR. change (bpow radix2 53) with (IZR (2 ^ 53)). apply IZR_lt. lia.
  - intros k d r Hk Hd Hr [E _]. lra.
  - exists b0, b1, exact. split; auto. exists N. intros fuel Hf. destruct (H2 fuel Hf) as (prs & E & L & U & V & Q1 & Q2 & Q3 & Q4 & Q5). exists prs. split; auto.
    destruct U as [|a U]; [|destruct (Q4 a); now left]. destruct V as [|b V]; [|destruct (Q5 b); now left]. rewrite app_nil_r in Q1, Q2. rewrite Q1, Q2, map_map. clear - Q3.
    induction L as [|[[a b] [a' b']] L IH]; cbn [map fst snd]; [constructor|]. destruct (Q3 _ _ (or_introl eq_refl)) as (A1 & A2 & A3 & A4). cbn [fst snd] in *. subst a a'. rewrite val_zero.
    replace (val b) with b' by lra. constructor. apply IH. intros x y Hin. apply Q3. now right.
Qed.
Print Assumptions C94_exact_doubles.

(** ** A concrete case: 0.1 + 0.2 *)
Definition d64 (m : positive) (e : Z) (H : bounded 53 1024 m e = true) : notnan := exist (fun x => proper_f64 x = true) (B754_finite false m e H) eq_refl.
Definition d01 : notnan := @d64 7205759403792794 (-56) eq_refl. (* 0.1 *)
Definition d02 : notnan := @d64 7205759403792794 (-55) eq_refl. (* 0.2 *)
Definition d1 : notnan := @d64 4503599627370496 (-52) eq_refl. (* 1.0 *)
Definition d03 : notnan := @d64 5404319552844596 (-54) eq_refl. (* 0.30000000000000004 *)
Definition sf (x : notnan_ord) : spec_float := B2SF (float_of x).

(** A triangle with a shortcut: the sum 0.1 + 0.2 is rounded to 0.30000000000000004, where the bar of dimension 1 ends; the edge of infinite weight is ignored. *)
Example C93_ex :
  let edges := [(0, 1, d01); (1, 2, d02); (0, 2, d1); (2, 0, inf64)] : list (nat * nat * notnan_ord) in
  double_weights 3 edges /\ shortest_path_library (F:=notnan_ord) add64 zero64 3 (fun e => bellman (F:=notnan_ord) add64 zero64 e 3) /\
  match grpph_py (F:=notnan_ord) list_heaps 40 zero64 inf64 (fun e => bellman (F:=notnan_ord) add64 zero64 e 3) 3 edges with
  | Ok (e, p) => Ok (map (map sf) e, map (map (fun q => (sf (fst q), sf (snd q)))) p) = Ok ([[sf zero64]; [sf zero64]], [[]; [(sf zero64, sf d03)]])
  | _ => False
  end.
Proof.
  cbv zeta. split; [|split; [apply bellman_library; [exact add64_nonneg|exact add64_monotone]|vm_compute; reflexivity]].
  assert (H : forall m e Hb, (0 < e + 1074)%Z -> (e <= 0)%Z -> (0 <= val (@d64 m e Hb) <= bpow radix2 1007)%R).
  { intros m e Hb H1 H2. unfold val. cbn [float_of d64 proj1_sig valf B2R cond_Zopp]. split; [apply F2R_ge_0; cbn; lia|].
    unfold bounded in Hb. apply andb_prop in Hb. destruct Hb as [Hc _]. apply Rle_trans with (bpow radix2 53); [|apply bpow_le; lia].
    unfold F2R. cbn [Fnum Fexp]. rewrite <- (Rmult_1_r (bpow radix2 53)). apply Rmult_le_compat; [apply IZR_le; lia|apply bpow_ge_0| |apply (bpow_le radix2 e 0); lia].
    change (bpow radix2 53) with (IZR (2 ^ 53)). apply IZR_le. apply canonical_canonical_mantissa with (sx := false) in Hc. unfold canonical in Hc. cbn [Fexp cond_Zopp] in Hc.
    assert (mag radix2 (F2R (Float radix2 (Z.pos m) e)) <= e + 53)%Z by (unfold cexp, fexp in Hc; unfold SpecFloat.emin in *; lia).
    rewrite mag_F2R in H by discriminate. apply le_IZR. change (IZR (2 ^ 53)) with (bpow radix2 53). apply Rle_trans with (bpow radix2 (mag radix2 (IZR (Z.pos m)))); [|apply bpow_le; lia].
    apply Rlt_le. rewrite <- (Rabs_pos_eq (IZR (Z.pos m))) at 1 by (apply IZR_le; lia). apply bpow_mag_gt. }
  intros u v w Hin. simpl in Hin. pose proof top_pos.
  destruct Hin as [[= <- <- <-]|[[= <- <- <-]|[[= <- <- <-]|[[= <- <- <-]|[]]]]].
  - destruct (H 7205759403792794%positive (-56)%Z eq_refl ltac:(lia) ltac:(lia)). split; [lia|]. split; [lia|]. split; [assumption|right; assumption].
  - destruct (H 7205759403792794%positive (-55)%Z eq_refl ltac:(lia) ltac:(lia)). split; [lia|]. split; [lia|]. split; [assumption|right; assumption].
  - destruct (H 4503599627370496%positive (-52)%Z eq_refl ltac:(lia) ltac:(lia)). split; [lia|]. split; [lia|]. split; [assumption|right; assumption].
  -  split; [lia|]. split; [lia|]. rewrite val_inf. split; [lra|auto].
Qed.

(** Integer weights up to [2^37] are exact for every digraph with fewer than 65536 vertices; here 1, 2 and 4, with a bar ending at 3. *)
Definition d2 : notnan := @d64 4503599627370496 (-51) eq_refl.
Definition d3 : notnan := @d64 6755399441055744 (-51) eq_refl.
Definition d4 : notnan := @d64 4503599627370496 (-50) eq_refl.
Example C94_ex :
  let edges := [(0, 1, d1); (1, 2, d2); (0, 2, d4)] : list (nat * nat * notnan_ord) in
  (-1074 <= 0 <= 971)%Z /\ (0 <= 2 ^ 37)%Z /\ (forall n, (N.of_nat n < 65536)%N -> ((Z.of_nat n - 1) * 2 ^ 37 <= 2 ^ 53)%Z) /\
  (forall u v w, In (u, v, w) edges -> u < 3 /\ v < 3 /\ (w = inf64 \/ (val w <= bpow radix2 1007)%R /\ exists k, (0 <= k <= 2 ^ 37)%Z /\ val w = (IZR k * bpow radix2 0)%R)) /\
  match grpph_py (F:=notnan_ord) list_heaps 40 zero64 inf64 (fun e => bellman (F:=notnan_ord) add64 zero64 e 3) 3 edges with
  | Ok (e, p) => Ok (map (map sf) e, map (map (fun q => (sf (fst q), sf (snd q)))) p) = Ok ([[sf zero64]; []], [[]; [(sf zero64, sf d3)]])
  | _ => False
  end.
Proof.
  cbv zeta. split; [lia|]. split; [lia|]. split; [intros n Hn; lia|]. split; [|vm_compute; reflexivity].
  assert (H : forall m e Hb k, Z.pos m = (k * 2 ^ (- e))%Z -> (0 <= k <= 2 ^ 37)%Z -> (e <= 0)%Z -> (val (@d64 m e Hb) <= bpow radix2 1007)%R /\ exists k, (0 <= k <= 2 ^ 37)%Z /\ val (@d64 m e Hb) = (IZR k * bpow radix2 0)%R).
  { intros m e Hb k E Hk He. assert (Ev : val (@d64 m e Hb) = IZR k).
    { unfold val. cbn [float_of d64 proj1_sig valf B2R cond_Zopp]. unfold F2R. cbn [Fnum Fexp]. rewrite E, mult_IZR. change (2 ^ (- e))%Z with (Zpower radix2 (- e)). rewrite (IZR_Zpower radix2 (- e)) by lia. rewrite Rmult_assoc, <- bpow_plus. replace (- e + e)%Z with 0%Z by lia. cbn [bpow]. lra. }
    rewrite Ev. split; [|exists k; split; auto; cbn [bpow]; lra]. apply Rle_trans with (bpow radix2 37); [|apply bpow_le; lia]. change (bpow radix2 37) with (IZR (2 ^ 37)). apply IZR_le. lia. }
  intros u v w Hin. simpl in Hin. destruct Hin as [[= <- <- <-]|[[= <- <- <-]|[[= <- <- <-]|[]]]].
  - split; [lia|]. split; [lia|]. right. apply (H _ _ _ 1%Z); [reflexivity|lia|lia].
  - split; [lia|]. split; [lia|]. right. apply (H _ _ _ 2%Z); [reflexivity|lia|lia].
  - split; [lia|]. split; [lia|]. right. apply (H _ _ _ 4%Z); [reflexivity|lia|lia].
Qed.
