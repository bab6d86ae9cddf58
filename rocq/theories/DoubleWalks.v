(** Walk lengths computed with doubles and with real numbers. *)
From Verif Require Import Base SpecWeighted ShortestPaths Float64.
From Coq Require Import ZArith Reals Lra Lia.
From Coq Require Import Floats.SpecFloat.
From Flocq Require Import Core BinarySingleNaN Plus_error Relative.
Set Implicit Arguments.

(** the real numbers as an ordered type *)
Lemma Rcmp_eq x y : Rcompare x y = Eq <-> x = y.
Proof. split; [apply Rcompare_Eq_inv|intros ->; now apply Rcompare_Eq]. Qed.
Lemma Rcmp_opp x y : Rcompare y x = CompOpp (Rcompare x y).
Proof. apply Rcompare_sym. Qed.
Lemma Rcmp_trans x y w : Rcompare x y = Lt -> Rcompare y w = Lt -> Rcompare x w = Lt.
Proof. intros H1 H2. apply Rcompare_Lt_inv in H1, H2. apply Rcompare_Lt. lra. Qed.
Definition R_ord : ordT := @OrdT R Rcompare Rcmp_eq Rcmp_opp Rcmp_trans.
Lemma ole_R (x y : R_ord) : ole x y <-> (x <= y)%R.
Proof. unfold ole. cbn [cmp R_ord]. destruct (Rcompare_spec x y); split; intros; try lra; congruence. Qed.
Lemma olt_R (x y : R_ord) : olt x y <-> (x < y)%R.
Proof. unfold olt. cbn [cmp R_ord]. destruct (Rcompare_spec x y); split; intros; try lra; congruence. Qed.

Lemma R_nonneg_add : nonneg_add (F:=R_ord) Rplus 0%R.
Proof. split; [intros w; apply Rplus_0_l|]. intros d w Hd Hw. rewrite !ole_R in *. split; lra. Qed.
Lemma R_mono (a b w : R_ord) : ole a b -> ole (Rplus a w : R_ord) (Rplus b w : R_ord).
Proof. rewrite !ole_R. lra. Qed.
Lemma add64_nonneg : nonneg_add (F:=notnan_ord) add64 zero64.
Proof.
  split; [intros w; apply add64_zero_l|]. intros d w Hd Hw. rewrite !ole_val in *. split.
  - rewrite <- (add64_zero_r d) at 1. apply add64_mono; lra.
  - rewrite <- (add64_zero_l w) at 1. apply add64_mono; lra.
Qed.
Lemma add64_monotone (a b w : notnan_ord) : ole a b -> ole (add64 a w : notnan_ord) (add64 b w : notnan_ord).
Proof. rewrite !ole_val. apply add64_mono_l. Qed.

(** ** Bounds *)
Notation big := (bpow radix2 1007).
Lemma mult_big_format (k : Z) : (0 <= k <= 65536)%Z -> rnd (IZR k * big) = (IZR k * big)%R.
Proof.
  intros Hk. apply round_generic; [typeclasses eauto|]. change (IZR k * big)%R with (F2R (Float radix2 k 1007)). apply generic_format_F2R. intros Hk0.
  unfold cexp, fexp. rewrite mag_F2R by exact Hk0. assert (mag radix2 (IZR k) <= 17)%Z.
  { apply mag_le_bpow; [now apply IZR_neq|]. rewrite <- abs_IZR. change (bpow radix2 17) with (IZR 131072). apply IZR_lt. lia. }
  unfold SpecFloat.emin. lia.
Qed.
Lemma mult_big_top (k : Z) : (0 <= k <= 65536)%Z -> (0 <= IZR k * big < top)%R.
Proof.
  intros Hk. pose proof (bpow_gt_0 radix2 1007). split; [apply Rmult_le_pos; [now apply IZR_le|lra]|]. unfold top. change 1024%Z with (17 + 1007)%Z. rewrite bpow_plus. apply Rmult_lt_compat_r; auto.
  change (bpow radix2 17) with (IZR 131072). apply IZR_lt. lia.
Qed.
Lemma add64_exact x y : finite x -> finite y -> (- top < rnd (val x + val y) < top)%R -> finite (add64 x y) /\ val (add64 x y) = rnd (val x + val y).
Proof.
  intros Fx Fy H. pose proof (add64_finite Fx Fy) as E. rewrite clamp_id in E by lra. split; auto. unfold finite. apply valf_between; [apply float_not_nan|]. fold (val (add64 x y)). lra.
Qed.
Lemma add64_bound x y (k : Z) : finite x -> finite y -> (0 <= k < 65536)%Z -> (0 <= val x <= IZR k * big)%R -> (0 <= val y <= big)%R ->
  finite (add64 x y) /\ val (add64 x y) = rnd (val x + val y) /\ (0 <= val (add64 x y) <= IZR (k + 1) * big)%R.
Proof.
  intros Fx Fy Hk Hx Hy. assert (E : (0 <= rnd (val x + val y) <= IZR (k + 1) * big)%R).
  { split; [rewrite <- rnd_0; apply rnd_mono; lra|]. rewrite <- (@mult_big_format (k + 1)) by lia. apply rnd_mono. rewrite plus_IZR. lra. }
  pose proof (@mult_big_top (k + 1) ltac:(lia)). pose proof top_pos. destruct (add64_exact Fx Fy) as [H1 H2]; [lra|]. split; auto. split; auto. now rewrite H2.
Qed.

(** the error of one addition *)
#[local] Instance prec53 : Prec_gt_0 53 := eq_refl.
Notation ulp1 := (bpow radix2 (-53)).
Lemma u_ro_53 : u_ro radix2 53 = ulp1.
Proof. unfold u_ro. change (- (53) + 1)%Z with (-53 + 1)%Z. rewrite bpow_plus. change (bpow radix2 1) with 2%R. lra. Qed.
Lemma rnd_error (x y : notnan) : finite x -> finite y -> (0 <= val x)%R -> (0 <= val y)%R ->
  (rnd (val x + val y) <= (val x + val y) * (1 + ulp1))%R /\ (val x + val y <= rnd (val x + val y) * (1 + ulp1))%R.
Proof.
  intros Fx Fy Hx Hy. assert (Gx : generic_format radix2 (FLT_exp (3 - 1024 - 53) 53) (val x)) by (unfold val; rewrite (proj1 (valf_finite _ Fx)); apply generic_format_B2R).
  assert (Gy : generic_format radix2 (FLT_exp (3 - 1024 - 53) 53) (val y)) by (unfold val; rewrite (proj1 (valf_finite _ Fy)); apply generic_format_B2R).
  assert (H0 : (0 <= rnd (val x + val y))%R) by (rewrite <- rnd_0; apply rnd_mono; lra).
  split.
  - destruct (FLT_plus_error_N_ex radix2 (3 - 1024 - 53) 53 (fun t => negb (Z.even t)) _ _ Gx Gy) as (eps & He & E).
    pose proof (u_rod1pu_ro_le_u_ro radix2 53) as Hu. rewrite u_ro_53 in *. change (round radix2 (FLT_exp (3 - 1024 - 53) 53) (Znearest (fun t => negb (Z.even t))) (val x + val y)) with (rnd (val x + val y)) in E. rewrite E.
    apply Rmult_le_compat_l; [lra|]. pose proof (Rle_abs eps). lra.
  - destruct (FLT_plus_error_N_round_ex radix2 (3 - 1024 - 53) 53 (fun t => negb (Z.even t)) _ _ Gx Gy) as (eps & He & E).
    rewrite u_ro_53 in *. change (round radix2 (FLT_exp (3 - 1024 - 53) 53) (Znearest (fun t => negb (Z.even t))) (val x + val y)) with (rnd (val x + val y)) in E. rewrite E at 1.
    apply Rmult_le_compat_l; [lra|]. pose proof (Rle_abs eps). lra.
Qed.

(** ** Walks *)
Section Graph.
  Variables (n : nat) (edges : list (nat * nat * notnan_ord)).
  Hypothesis Hn : (N.of_nat n < 65536)%N.
  Hypothesis Hw : weighted_digraph (F:=notnan_ord) n zero64 edges.
  Hypothesis Hbig : forall u v w, In (u, v, w) edges -> w = inf64 \/ (val w <= big)%R.

  (** the edges of finite weight; as real numbers *)
  Definition fin_edges : list (nat * nat * notnan_ord) := filter (fun e => oltb (snd e) (inf64 : notnan_ord)) edges.
  Definition val_edges (es : list (nat * nat * notnan_ord)) : list (nat * nat * R_ord) := map (fun e => (fst e, val (snd e))) es.
  Definition real_arc (u v : nat) (r : R) : Prop := exists w, In (u, v, w) edges /\ finite w /\ r = val w.

  Lemma finite_lt (w : notnan_ord) : olt w (inf64 : notnan_ord) <-> w <> inf64.
  Proof.
    rewrite olt_val. pose proof (inf_greatest w). split; [intros Hlt ->; lra|]. intros Hne. destruct (Rle_lt_or_eq_dec _ _ H) as [|E]; auto. exfalso. now apply Hne, val_inj.
  Qed.
  Lemma nonneg_finite (w : notnan) : (0 <= val w)%R -> w <> inf64 -> finite w.
  Proof. intros H Hne. destruct (finite_or_inf w) as [|[->| ->]]; auto; [congruence|]. rewrite val_neg_inf in H. pose proof top_pos. lra. Qed.
  Lemma finite_not_inf w : finite w -> w <> inf64.
  Proof. intros H ->. discriminate. Qed.
  Lemma in_fin u v w : In (u, v, w) fin_edges <-> In (u, v, w) edges /\ w <> inf64.
  Proof.
    unfold fin_edges. rewrite filter_In. cbn [snd]. rewrite <- finite_lt. destruct (oltb_spec w (inf64 : notnan_ord)); intuition congruence.
  Qed.
  Lemma fin_spec u v w : In (u, v, w) fin_edges -> u < n /\ v < n /\ finite w /\ (0 <= val w <= big)%R.
  Proof.
    rewrite in_fin. intros [Hin Hne]. destruct (Hw _ _ _ Hin) as (H1 & H2 & H3). apply ole_val in H3. rewrite val_zero in H3. destruct (Hbig _ _ _ Hin) as [|Hb]; [congruence|].
    split; auto. split; auto. split; [now apply nonneg_finite|lra].
  Qed.
  Lemma fin_arc u v w : finite_edge_of (inf64 : notnan_ord) edges u v w <-> edge_of fin_edges u v w.
  Proof. unfold finite_edge_of, edge_of. rewrite in_fin, finite_lt. reflexivity. Qed.
  Lemma in_val es u v r : In (u, v, r) (val_edges es) <-> exists w, In (u, v, w) es /\ r = val w.
  Proof.
    unfold val_edges. rewrite in_map_iff. split.
    - intros ([[a b] w] & [= <- <- <-] & Hin). exists w. auto.
    - intros (w & Hin & ->). exists (u, v, w). auto.
  Qed.
  Lemma real_arc_fin u v r : real_arc u v r <-> edge_of (val_edges fin_edges) u v r.
  Proof.
    unfold real_arc, edge_of. rewrite in_val. split.
    - intros (w & Hin & Hf & ->). exists w. split; auto. apply in_fin. split; auto. now apply finite_not_inf.
    - intros (w & Hin & ->). exists w. apply in_fin in Hin as Hin'. destruct Hin'. split; auto. split; auto. apply (fin_spec _ _ _ Hin).
  Qed.
  Lemma real_arc_edges u v r : real_arc u v r <-> finite_edge_of (top : R_ord) (val_edges edges) u v r.
  Proof.
    unfold real_arc, finite_edge_of. rewrite in_val, olt_R. split.
    - intros (w & Hin & Hf & ->). split; [exists w; auto|]. apply val_finite, Hf.
    - intros [(w & Hin & ->) Hlt]. exists w. split; auto. split; auto. apply nonneg_finite; [destruct (Hw _ _ _ Hin) as (_ & _ & H); apply ole_val in H; now rewrite val_zero in H|].
      intros ->. rewrite val_inf in Hlt. lra.
  Qed.
  Lemma walk_arcs {F : ordT} (add : F -> F -> F) z (a b : nat -> nat -> F -> Prop) : (forall u v w, a u v w -> b u v w) -> forall x y d, walk add z a x y d -> walk add z b x y d.
  Proof. intros H x y d Hk. induction Hk; [constructor|econstructor; eauto]. Qed.

  Lemma fin_digraph : weighted_digraph (F:=notnan_ord) n zero64 fin_edges.
  Proof. intros u v w Hin. destruct (fin_spec _ _ _ Hin) as (H1 & H2 & _ & H3). split; auto. split; auto. apply ole_val. rewrite val_zero. lra. Qed.
  Lemma real_fin_digraph : weighted_digraph (F:=R_ord) n 0%R (val_edges fin_edges).
  Proof. intros u v r Hin. apply in_val in Hin. destruct Hin as (w & Hin & ->). destruct (fin_spec _ _ _ Hin) as (H1 & H2 & _ & H3). split; auto. split; auto. apply ole_R. lra. Qed.
  Lemma real_digraph : weighted_digraph (F:=R_ord) n 0%R (val_edges edges).
  Proof. intros u v r Hin. apply in_val in Hin. destruct Hin as (w & Hin & ->). destruct (Hw _ _ _ Hin) as (H1 & H2 & H3). split; auto. split; auto. apply ole_val in H3. rewrite val_zero in H3. now apply ole_R. Qed.

  Notation vwalk64 := (vwalk (F:=notnan_ord) add64 zero64 fin_edges).
  Notation vwalkR := (vwalk (F:=R_ord) Rplus 0%R (val_edges fin_edges)).

  Lemma vwalk_length {F : ordT} (add : F -> F -> F) z es x l y d : vwalk add z es x l y d -> 1 <= length l.
  Proof. induction 1; cbn [length]; lia. Qed.
  Lemma vwalk64_bound x l y d : vwalk64 x l y d -> (Z.of_nat (length l) <= 65536)%Z -> finite d /\ (0 <= val d <= IZR (Z.of_nat (length l) - 1) * big)%R.
  Proof.
    induction 1 as [|l u y d w Hv IH Ha Hni]; intros Hl.
    - split; [reflexivity|]. rewrite val_zero. change (length [x]) with 1. change (Z.of_nat 1 - 1)%Z with 0%Z. rewrite Rmult_0_l. lra.
    - cbn [length] in Hl. destruct (IH ltac:(lia)) as [Fd Bd]. destruct (fin_spec _ _ _ Ha) as (_ & _ & Fw & Bw). pose proof (vwalk_length Hv).
      destruct (@add64_bound d w (Z.of_nat (length l) - 1) Fd Fw ltac:(lia) Bd Bw) as (H1 & _ & H2). split; auto. cbn [length]. replace (Z.of_nat (S (length l)) - 1)%Z with (Z.of_nat (length l) - 1 + 1)%Z by lia. exact H2.
  Qed.
  Lemma vwalkR_bound x l y r : vwalkR x l y r -> (0 <= r <= IZR (Z.of_nat (length l) - 1) * big)%R.
  Proof.
    induction 1 as [|l u y d w Hv IH Ha Hni].
    - change (length [x]) with 1. change (Z.of_nat 1 - 1)%Z with 0%Z. rewrite Rmult_0_l. lra.
    - apply in_val in Ha. destruct Ha as (w' & Ha & ->). destruct (fin_spec _ _ _ Ha) as (_ & _ & Fw & Bw). cbn [length]. replace (Z.of_nat (S (length l)) - 1)%Z with (Z.of_nat (length l) - 1 + 1)%Z by lia. rewrite plus_IZR. lra.
  Qed.
  Lemma vwalk_short {F : ordT} (add : F -> F -> F) z es x l y d : weighted_digraph (F:=F) n z es -> x < n -> vwalk add z es x l y d -> length l <= n.
  Proof.
    intros Hd Hx Hv. rewrite <- (seq_length n 0). apply NoDup_incl_length; [exact (vwalk_nodup Hv)|]. intros v Hi. apply in_seq. pose proof (vwalk_bound Hd Hx Hv v Hi). lia.
  Qed.

  Lemma no_overflow64 : no_overflow (F:=notnan_ord) add64 zero64 inf64 edges.
  Proof.
    intros x y d [Hk Hmin]. destruct (Nat.eq_dec x y) as [<-|Hne].
    - pose proof (Hmin zero64 (walk_nil _ _ _ _)) as H. apply ole_val in H. apply olt_val. rewrite val_inf, val_zero in *. pose proof top_pos. lra.
    - apply (@walk_arcs _ _ _ _ (edge_of fin_edges) (fun u v w => proj1 (fin_arc u v w))) in Hk.
      destruct (walk_vwalk add64_nonneg add64_monotone fin_digraph Hk) as (l & d' & Hv & Hle).
      assert (Hx : x < n). { clear - Hw Hbig Hk Hne. induction Hk as [|u y d w Hk IH Ha]; [congruence|]. destruct (Nat.eq_dec x u) as [<-|]; auto. apply (fin_spec _ _ _ Ha). }
      pose proof (vwalk_short fin_digraph Hx Hv) as Hl. destruct (vwalk64_bound Hv ltac:(lia)) as [Fd Bd].
      assert (H : ole d (d' : notnan_ord)) by (apply Hmin, (@walk_arcs _ _ _ (edge_of fin_edges) _ (fun u v w => proj2 (fin_arc u v w))), (vwalk_walk Hv)).
      apply ole_val in H. apply olt_val. rewrite val_inf. pose proof (val_finite Fd). lra.
  Qed.
  Lemma no_overflowR : no_overflow (F:=R_ord) Rplus 0%R (top : R_ord) (val_edges edges).
  Proof.
    intros x y d [Hk Hmin]. destruct (Nat.eq_dec x y) as [<-|Hne].
    - pose proof (Hmin 0%R (walk_nil _ _ _ _)) as H. apply ole_R in H. apply olt_R. pose proof top_pos. lra.
    - assert (Harc : forall u v r, finite_edge_of (top : R_ord) (val_edges edges) u v r <-> edge_of (val_edges fin_edges) u v r) by (intros; rewrite <- real_arc_edges; apply real_arc_fin).
      apply (@walk_arcs _ _ _ _ _ (fun u v w => proj1 (Harc u v w))) in Hk.
      destruct (walk_vwalk R_nonneg_add R_mono real_fin_digraph Hk) as (l & d' & Hv & Hle).
      assert (Hx : x < n). { clear - Hw Hbig Hk Hne. induction Hk as [|u y d w Hk IH Ha]; [congruence|]. destruct (Nat.eq_dec x u) as [<-|]; auto. apply (real_fin_digraph _ _ _ Ha). }
      pose proof (vwalk_short real_fin_digraph Hx Hv) as Hl. pose proof (vwalkR_bound Hv) as Bd. pose proof (vwalk_length Hv).
      pose proof (@mult_big_top (Z.of_nat (length l) - 1) ltac:(lia)). assert (H1 : ole d (d' : R_ord)) by (apply Hmin, (@walk_arcs _ _ _ _ _ (fun u v w => proj2 (Harc u v w))), (vwalk_walk Hv)).
      apply ole_R in H1. apply olt_R. lra.
  Qed.

  (** [P k d r]: what relates the double length [d] to the real length [r] of a walk along [k] vertices without repetition *)
  Section Transfer.
    Variable P : nat -> notnan -> R -> Prop.
    Hypothesis P1 : P 1 zero64 0%R.
    Hypothesis Pstep : forall k d r u v w, P k d r -> 1 <= k < n -> finite d -> (0 <= val d <= IZR (Z.of_nat k - 1) * big)%R -> (0 <= r)%R -> (k = 1 -> d = zero64 /\ r = 0%R) ->
      In (u, v, w) fin_edges -> val (add64 d w) = rnd (val d + val w) -> P (S k) (add64 d w) (r + val w)%R.

    Lemma one_vertex {F : ordT} (add : F -> F -> F) z es x l y d : vwalk add z es x l y d -> length l = 1 -> d = z.
    Proof. intros Hv Hl. destruct Hv as [|l u y d w Hv]; auto. cbn [length] in Hl. pose proof (vwalk_length Hv). lia. Qed.
    Lemma to_real x l y d : x < n -> vwalk64 x l y d -> exists r, vwalkR x l y r /\ P (length l) d r.
    Proof.
      intros Hx. induction 1 as [|l u y d w Hv IH Ha Hni]; [exists 0%R; split; [constructor|exact P1]|]. destruct IH as (r & Hr & HP).
      assert (Hl : length (y :: l) <= n) by (apply (@vwalk_short notnan_ord add64 zero64 fin_edges x (y :: l) y (add64 d w)); auto using fin_digraph; econstructor; eauto). cbn [length] in Hl.
      exists (Rplus r (val w)). split; [apply (@vw_snoc R_ord Rplus 0%R (val_edges fin_edges) x l u y r (val w)); auto; apply in_val; eauto|]. pose proof (vwalk_length Hv). destruct (vwalk64_bound Hv ltac:(lia)) as [Fd Bd]. pose proof (vwalkR_bound Hr) as Br.
      destruct (fin_spec _ _ _ Ha) as (_ & _ & Fw & Bw). destruct (@add64_bound d w (Z.of_nat (length l) - 1) Fd Fw ltac:(lia) Bd Bw) as (_ & E & _).
      cbn [length]. eapply Pstep; eauto; [exact (proj1 Br)|]. intros El. split; [exact (one_vertex Hv El)|exact (one_vertex Hr El)].
    Qed.
    Lemma of_real x l y r : x < n -> vwalkR x l y r -> exists d, vwalk64 x l y d /\ P (length l) d r.
    Proof.
      intros Hx. induction 1 as [|l u y r w' Hv IH Ha Hni]; [exists zero64; split; [constructor|exact P1]|]. destruct IH as (d & Hd & HP). apply in_val in Ha. destruct Ha as (w & Ha & ->).
      assert (Hv' : vwalk64 x (y :: l) y (add64 d w)) by (econstructor; eauto).
      pose proof (vwalk_short fin_digraph Hx Hv') as Hl. cbn [length] in Hl. exists (add64 d w). split; auto. pose proof (vwalk_length Hv). destruct (vwalk64_bound Hd ltac:(lia)) as [Fd Bd]. pose proof (vwalkR_bound Hv) as Br.
      destruct (fin_spec _ _ _ Ha) as (_ & _ & Fw & Bw). destruct (@add64_bound d w (Z.of_nat (length l) - 1) Fd Fw ltac:(lia) Bd Bw) as (_ & E & _).
      cbn [length]. eapply Pstep; eauto; [exact (proj1 Br)|]. intros El. split; [exact (one_vertex Hd El)|exact (one_vertex Hv El)].
    Qed.
  End Transfer.
End Graph.
