(** Property theorems C95 and C96: the Rips program on doubles. *)
From Coq Require Import Permutation Sorted ZArith Reals Lra Lia Floats.SpecFloat.
From Flocq Require Import Core BinarySingleNaN.
From Verif Require Import Base Fields FieldsFacts Spec LinAlg Columns ColumnsFacts Matrices Reduction Rips SpecRips SpecPath RipsCode RipsFacts RipsBasis RipsComplex PropRips RipsCohomology PropRipsCohomology SpecPH Persistence BettiUnique RipsPersistence PropRipsPersistence PropRipsCli BettiMaps BettiFactor BarsUnique RipsSwap PropRipsOrder RipsRepeat RipsCover PropRipsRepeat RipsBars SpecBottleneck Matching Examples PropBottleneck PropRipsCircle Float64 DoubleWalks PropDouble.
Set Implicit Arguments.

(** main.rs 84: the literal [0.01], the double nearest to 1/100 *)
Definition eps64 : notnan := @d64 5764607523034235 (-59) eq_refl.
Definition eps64_next : notnan := @d64 5764607523034236 (-59) eq_refl.

Lemma val_eps : val eps64 = (IZR 5764607523034235 * bpow radix2 (-59))%R.
Proof. reflexivity. Qed.
Lemma val_next : val eps64_next = (IZR 5764607523034236 * bpow radix2 (-59))%R.
Proof. reflexivity. Qed.
Lemma bpow_59 : bpow radix2 (-59) = (/ IZR 576460752303423488)%R.
Proof. reflexivity. Qed.
Lemma bpow_58 : bpow radix2 (-58) = (/ IZR 288230376151711744)%R.
Proof. reflexivity. Qed.
(** it is the nearest: its distance to 1/100 is less than half the spacing [2^-59] *)
Lemma eps_nearest : (Rabs (val eps64 - 1 / 100) < bpow radix2 (-60))%R.
Proof. rewrite val_eps, bpow_59. change (bpow radix2 (-60)) with (/ IZR 1152921504606846976)%R. apply Rabs_def1; lra. Qed.

Lemma sub64_gap (b e : notnan) : finite b -> finite e ->
  (olt (eps64 : notnan_ord) (sub64 e b : notnan_ord) -> (1 / 100 < val e - val b)%R) /\
  (~ olt (eps64 : notnan_ord) (sub64 e b : notnan_ord) -> (val e - val b < 1 / 100 + bpow radix2 (-58))%R).
Proof.
  intros Fb Fe. rewrite olt_val, sub64_finite by auto.
  assert (Ee : rnd (val eps64) = val eps64) by (apply rnd_val; reflexivity). assert (En : rnd (val eps64_next) = val eps64_next) by (apply rnd_val; reflexivity).
  assert (Te : clamp (val eps64) = val eps64) by (apply clamp_id, valf_bounds). assert (Tn : clamp (val eps64_next) = val eps64_next) by (apply clamp_id, valf_bounds).
  split.
  - intros H. destruct (Rle_lt_dec (val e - val b) (val eps64)) as [Hle|Hlt].
    + exfalso. apply rnd_mono in Hle. rewrite Ee in Hle. apply clamp_mono in Hle. lra.
    + eapply Rle_lt_trans; [|exact Hlt]. rewrite val_eps, bpow_59. lra.
  - intros H. destruct (Rlt_le_dec (val e - val b) (val eps64_next)) as [Hlt|Hle].
    + eapply Rlt_trans; [exact Hlt|]. rewrite val_next, bpow_59, bpow_58. lra.
    + exfalso. apply H. apply rnd_mono in Hle. rewrite En in Hle. apply clamp_mono in Hle. rewrite Tn in Hle. eapply Rlt_le_trans; [|exact Hle]. rewrite val_eps, val_next, bpow_59. lra.
Qed.
Lemma val_eps_pos : (0 < val eps64)%R.
Proof. rewrite val_eps, bpow_59. lra. Qed.
Lemma sub64_self x : ~ olt (eps64 : notnan_ord) (sub64 x x : notnan_ord).
Proof.
  rewrite olt_val. pose proof val_eps_pos. destruct (finite_or_inf x) as [Fx|[->| ->]].
  - rewrite sub64_finite by auto. rewrite Rminus_diag_eq by reflexivity. rewrite rnd_0, clamp_id; pose proof top_pos; lra.
  - rewrite sub64_inf, val_neg_inf. pose proof top_pos. lra.
  - assert (E : sub64 neg_inf64 neg_inf64 = neg_inf64) by reflexivity. rewrite E, val_neg_inf. pose proof top_pos. lra.
Qed.
Lemma sub64_to_inf b : finite b -> sub64 inf64 b = inf64.
Proof. intros Fb. apply notnan_eq. destruct b as [[s|[]| |s m e Hb] Hp]; try discriminate; reflexivity. Qed.

(** what of a list of bars is printed: those longer than 0.01, with the accuracy of doubles *)
Definition longer (bar : nat * (notnan_ord * notnan_ord)) : Prop := snd (snd bar) = inf64 \/ (1 / 100 < val (snd (snd bar)) - val (fst (snd bar)))%R.
Definition not_longer (bar : nat * (notnan_ord * notnan_ord)) : Prop := snd (snd bar) <> inf64 /\ (val (snd (snd bar)) - val (fst (snd bar)) < 1 / 100 + bpow radix2 (-58))%R.

Lemma filter_split {A} (f : A -> bool) l : Permutation l (filter f l ++ filter (fun x => negb (f x)) l).
Proof. induction l as [|a l IH]; cbn [filter]; auto. destruct (f a); cbn [negb app]; [now constructor|]. now apply Permutation_cons_app. Qed.

(** the bars of positive length exist, and the program prints those longer than 0.01 *)
Theorem C95_rips_program_doubles :
  forall (HI : heaps) (uw : N) (d : list (list notnan_ord)) (max_dim : nat),
  distance_matrix (F:=notnan_ord) zero64 d -> 1 <= max_dim -> codes_fit uw (length d) (max_dim + 2) ->
  forall (L : list N) (fuel : nat), covers_simplices (length d) (max_dim + 2) L -> length L < fuel ->
  exists (bars printed_bars other_bars : list (nat * (notnan_ord * notnan_ord))) (printed : list (bar_line notnan_ord)),
    rips_barcode Z2_coeff (zero64 : notnan_ord) d max_dim bars /\
    rips_main HI fuel uw (zero64 : notnan_ord) sub64 eps64 d max_dim =
      Ok (map (fun k => binomial (length d) (k + 1)) (seq 0 (max_dim + 1)),
          (if length d =? 0 then [] else [(0, code (length d) [0], zero64 : notnan_ord)]), printed) /\
    Permutation (map (fun line => (fst (fst line), snd line)) printed) printed_bars /\
    Permutation bars (printed_bars ++ other_bars) /\
    (forall bar, In bar printed_bars -> longer bar) /\ (forall bar, In bar other_bars -> not_longer bar).
Proof.
  intros HI uw d m Hdm Hm Hfit L fuel HL Hf. pose proof (distance_rips Hdm) as Hd.
  destruct (@C64_rips_program HI notnan_ord uw zero64 sub64 eps64 d m Hd Hm Hfit L fuel HL Hf) as (ess & bars & E1 & Ess & _ & Hsh & H1). subst ess.
  set (f := fun line : bar_line notnan_ord => (fst (fst line), snd line)). set (want := filter (fun p => proper (snd p)) (map f bars)).
  assert (Hbar : forall q b e, In (q, (b, e)) want -> q <= m /\ olt b e /\ finite b /\ (0 <= val b)%R).
  { intros q b e Hin. apply filter_In in Hin. destruct Hin as [Hin Hp]. unfold proper in Hp. cbn [fst snd] in Hp. destruct (oltb_spec b e) as [Hlt|]; [|discriminate].
    apply in_map_iff in Hin. destruct Hin as ([[k [c1 c2]] [fb fe]] & Ef & Hin). unfold f in Ef. cbn [fst snd] in Ef. injection Ef as <- <- <-. apply Hsh in Hin. destruct Hin as (Hk & s & t & Hs & _ & _ & _ & _ & _ & Hdia & _ & _).
    split; auto. split; auto. assert (Hz : (0 <= val fb)%R) by (destruct Hdia as [(i & j & Hi & Hj & <-) _]; destruct Hdm as (_ & _ & _ & Hnn); assert (Hz : ole (zero64 : notnan_ord) (dist (zero64 : notnan_ord) d i j)) by (destruct Hs as (_ & _ & Hs); rewrite Forall_forall in Hs; apply Hnn; apply Hs; auto); apply ole_val in Hz; rewrite val_zero in Hz; exact Hz).
    split; auto. apply nonneg_finite; auto. intros ->. apply olt_val in Hlt. pose proof (inf_greatest fe). lra. }
  assert (Hbc : rips_barcode Z2_coeff (zero64 : notnan_ord) d m want).
  { split; [intros q b e Hin; destruct (Hbar q b e Hin) as (A & B & _); auto|]. intros phi D dim k l G1 G2 G3 G4 G5 q s t Hq Hst. apply (H1 phi D dim k l G1 G2 G3 G4 G5 q s t); auto. clear H1.
    assert (Hes : map snd (filter (fun line : nat * N * notnan_ord => fst (fst line) =? q) (if length d =? 0 then [] else [(0, code (length d) [0], zero64 : notnan_ord)])) = (if (q =? 0) && negb (length d =? 0) then [zero64 : notnan_ord] else [])).
    { destruct (length d =? 0); [now rewrite andb_false_r|]. cbn [filter fst negb]. rewrite andb_true_r, (Nat.eqb_sym 0 q). destruct (q =? 0); reflexivity. }
    rewrite Hes. rewrite <- (bars_alive_proper _ (map snd (filter (fun line : bar_line notnan_ord => fst (fst line) =? q) bars))) by auto. f_equal. unfold want, of_degree. clear.
    induction bars as [|[[k [c1 c2]] [fb fe]] B IH]; auto. cbn [map filter fst snd]. change (f (k, (c1, c2), (fb, fe))) with (k, (fb, fe)). cbn [fst snd].
    destruct (proper (fb, fe)) eqn:Ep; cbn [filter fst]; destruct (Nat.eqb_spec k q) as [->|]; cbn [map filter snd]; rewrite ?Ep; auto. f_equal. exact IH. }
  destruct (@C73_program_prints_barcode HI notnan_ord uw zero64 sub64 eps64 d m Hd Hm Hfit sub64_self L fuel HL Hf want Hbc) as (printed & E2 & HP).
  set (keep := fun bar : nat * (notnan_ord * notnan_ord) => oltb (eps64 : notnan_ord) (sub64 (snd (snd bar)) (fst (snd bar)))) in HP.
  exists want, (filter keep want), (filter (fun b => negb (keep b)) want), printed. split; auto. split; auto. split; auto. split; [apply filter_split|]. split.
  - intros [q [b e]] Hin. apply filter_In in Hin. destruct Hin as [Hin Hk]. unfold keep in Hk. cbn [fst snd] in Hk. destruct (oltb_spec (eps64 : notnan_ord) (sub64 e b)) as [Hlt|]; [|discriminate].
    destruct (Hbar _ _ _ Hin) as (_ & Hlt' & Fb & Hb). unfold longer. cbn [fst snd]. destruct (finite_or_inf e) as [Fe|[->| ->]]; auto; [right; now apply (sub64_gap Fb Fe)|].
    exfalso. apply olt_val in Hlt'. pose proof (neg_inf_least b). lra.
  - intros [q [b e]] Hin. apply filter_In in Hin. destruct Hin as [Hin Hk]. unfold keep in Hk. cbn [fst snd] in Hk. destruct (oltb_spec (eps64 : notnan_ord) (sub64 e b)) as [|Hno]; [discriminate|].
    destruct (Hbar _ _ _ Hin) as (_ & Hlt' & Fb & Hb). unfold not_longer. cbn [fst snd]. destruct (finite_or_inf e) as [Fe|[->| ->]].
    + split; [intros ->; discriminate|]. now apply (sub64_gap Fb Fe).
    + exfalso. apply Hno. rewrite (sub64_to_inf Fb). apply olt_val. rewrite val_inf. apply (@val_finite eps64). reflexivity.
    + exfalso. apply olt_val in Hlt'. pose proof (neg_inf_least b). lra.
Qed.
Print Assumptions C95_rips_program_doubles.

(** ** C96: stability of what the program prints, in real numbers *)
(** doubles are multiples of [2^-1074] *)
Definition unscale (k : Z) : R := (IZR k * bpow radix2 (-1074))%R.
Definition valZ (x : notnan_ord) : Z := Zfloor (val x * bpow radix2 1074).
Lemma unscale_valZ (x : notnan_ord) : unscale (valZ x) = val x.
Proof.
  assert (H : exists k, (val x * bpow radix2 1074)%R = IZR k).
  { destruct (finite_or_inf x) as [Fx|[->| ->]].
    - unfold val. rewrite (proj1 (valf_finite _ Fx)). pose proof (generic_format_B2R 53 1024 (float_of x)) as G. unfold generic_format in G. rewrite G. unfold F2R. cbn [Fnum Fexp].
      rewrite Rmult_assoc, <- bpow_plus. set (c := cexp radix2 (fexp 53 1024) (B2R (float_of x))). assert (Hc : (0 <= c + 1074)%Z) by (unfold c, cexp, fexp, SpecFloat.emin; lia).
      rewrite <- (IZR_Zpower radix2 (c + 1074)) by exact Hc. rewrite <- mult_IZR. eexists. reflexivity.
    - rewrite val_inf. unfold top. rewrite <- bpow_plus. exists (Zpower radix2 (1024 + 1074)). symmetry. apply IZR_Zpower. lia.
    - rewrite val_neg_inf. unfold top. rewrite Ropp_mult_distr_l_reverse, <- bpow_plus. exists (- Zpower radix2 (1024 + 1074))%Z. rewrite opp_IZR. f_equal. }
  destruct H as (k & Hk). unfold unscale, valZ. rewrite Hk, Zfloor_IZR, <- Hk, Rmult_assoc, <- bpow_plus. change (bpow radix2 (1074 + -1074)) with 1%R. lra.
Qed.
Lemma unscale_le a b : (unscale a <= unscale b)%R <-> (a <= b)%Z.
Proof. unfold unscale. pose proof (bpow_gt_0 radix2 (-1074)). split; intros; [apply le_IZR; eapply Rmult_le_reg_r; eauto|apply Rmult_le_compat_r; [lra|now apply IZR_le]]. Qed.
Lemma unscale_minus a b : unscale (a - b) = (unscale a - unscale b)%R.
Proof. unfold unscale. rewrite minus_IZR. ring. Qed.
Lemma unscale_plus a b : unscale (a + b) = (unscale a + unscale b)%R.
Proof. unfold unscale. rewrite plus_IZR. ring. Qed.
Lemma unscale_abs a : unscale (Z.abs a) = Rabs (unscale a).
Proof. unfold unscale. rewrite abs_IZR, Rabs_mult, (Rabs_pos_eq (bpow radix2 (-1074))); auto. apply bpow_ge_0. Qed.
(** the largest multiple of [2^-1074] at most [r] *)
Definition scale (r : R) : Z := Zfloor (r * bpow radix2 1074).
Lemma scale_spec r k : (unscale k <= r)%R <-> (k <= scale r)%Z.
Proof.
  unfold unscale, scale. pose proof (bpow_gt_0 radix2 (-1074)). pose proof (bpow_gt_0 radix2 1074).
  assert (E : (bpow radix2 (-1074) * bpow radix2 1074)%R = 1%R) by (rewrite <- bpow_plus; reflexivity). split.
  - intros H1. apply Zfloor_lub. apply (Rmult_le_compat_r (bpow radix2 1074)) in H1; [|lra]. rewrite Rmult_assoc, E, Rmult_1_r in H1. exact H1.
  - intros H1. apply IZR_le in H1. pose proof (Zfloor_lb (r * bpow radix2 1074)) as H2. apply (Rmult_le_reg_r (bpow radix2 1074)); [lra|]. rewrite Rmult_assoc, E, Rmult_1_r. lra.
Qed.
Lemma unscale_scale r : (unscale (scale r) <= r)%R.
Proof. apply scale_spec. lia. Qed.

Lemma matching_map {X Y X' Y'} (g : X -> X') (h : Y -> Y') (R : X -> Y -> Prop) (P : X -> Prop) (Q : Y -> Prop) (R' : X' -> Y' -> Prop) (P' : X' -> Prop) (Q' : Y' -> Prop) l l' :
  (forall x y, R x y -> R' (g x) (h y)) -> (forall x, P x -> P' (g x)) -> (forall y, Q y -> Q' (h y)) -> matching R P Q l l' -> matching R' P' Q' (map g l) (map h l').
Proof.
  intros H1 H2 H3 (M & U & V & A1 & A2 & A3 & A4 & A5). exists (map (fun p => (g (fst p), h (snd p))) M), (map g U), (map h V).
  split; [rewrite map_map; cbn [fst]; rewrite <- (map_map fst g), <- map_app; now apply Permutation_map|].
  split; [rewrite map_map; cbn [snd]; rewrite <- (map_map snd h), <- map_app; now apply Permutation_map|].
  split; [intros x y Hin; apply in_map_iff in Hin; destruct Hin as ([a b] & [= <- <-] & Hin); auto|].
  split; intros x Hin; apply in_map_iff in Hin; destruct Hin as (a & <- & Hin); auto.
Qed.

(** bars as pairs of real numbers: within [delta] of each other; no longer than [len] *)
Definition within (delta : R) (p p' : R * R) : Prop := (Rabs (fst p - fst p') <= delta)%R /\ (Rabs (snd p - snd p') <= delta)%R.
Definition no_longer (len : R) (p : R * R) : Prop := (snd p - fst p <= len)%R.

Theorem C96_rips_program_stability :
  forall (HI HI' : heaps) (uw : N) (d d' : list (list notnan_ord)) (R : nat -> nat -> Prop) (delta : Rdefinitions.R) (max_dim : nat),
  distance_matrix (F:=notnan_ord) zero64 d -> distance_matrix (F:=notnan_ord) zero64 d' ->
  correspondence (length d) (length d') R -> (0 <= delta)%R ->
  (forall i j i' j', R i j -> R i' j' -> i < length d -> i' < length d -> j < length d' -> j' < length d' ->
     (Rabs (val (dist (zero64 : notnan_ord) d i i') - val (dist (zero64 : notnan_ord) d' j j')) <= delta)%R) ->
  1 <= max_dim -> codes_fit uw (length d) (max_dim + 2) -> codes_fit uw (length d') (max_dim + 2) ->
  forall (L L' : list N) (fuel fuel' : nat), covers_simplices (length d) (max_dim + 2) L -> covers_simplices (length d') (max_dim + 2) L' ->
  length L < fuel -> length L' < fuel' ->
  exists sizes sizes' ess ess' (printed printed' : list (bar_line notnan_ord)),
    rips_main HI fuel uw (zero64 : notnan_ord) sub64 eps64 d max_dim = Ok (sizes, ess, printed) /\
    rips_main HI' fuel' uw (zero64 : notnan_ord) sub64 eps64 d' max_dim = Ok (sizes', ess', printed') /\
    forall q, q <= max_dim ->
      let bars (B : list (bar_line notnan_ord)) := map (fun line => (val (fst (snd line)), val (snd (snd line)))) (filter (fun line => fst (fst line) =? q) B) in
      matching (within delta) (no_longer (2 * delta + (1 / 100 + bpow radix2 (-58)))) (no_longer (2 * delta + (1 / 100 + bpow radix2 (-58)))) (bars printed) (bars printed').
Proof.
  intros HI HI' uw d d' R delta m Hd Hd' HR Hdel Hnear Hm Hfit Hfit' L L' fuel fuel' HL HL' Hf Hf'. set (cut := (1 / 100 + bpow radix2 (-58))%R).
  pose proof (bpow_gt_0 radix2 (-58)) as H58.
  assert (Hord : forall x y : notnan_ord, ole x y <-> (valZ x <= valZ y)%Z) by (intros x y; rewrite ole_val, <- (unscale_valZ x), <- (unscale_valZ y); apply unscale_le).
  assert (Hz : forall r, (0 <= r)%R -> (0 <= scale r)%Z) by (intros r Hr; apply scale_spec; unfold unscale; rewrite Rmult_0_l; exact Hr).
  assert (Hn' : forall i j i' j', R i j -> R i' j' -> i < length d -> i' < length d -> j < length d' -> j' < length d' ->
     (Z.abs (valZ (dist (zero64 : notnan_ord) d i i') - valZ (dist (zero64 : notnan_ord) d' j j')) <= scale delta)%Z).
  { intros i j i' j' A1 A2 A3 A4 A5 A6. apply scale_spec. rewrite unscale_abs, unscale_minus, !unscale_valZ. apply Hnear; auto. }
  assert (Hcut : forall b e : notnan_ord, ole b e -> ~ olt (eps64 : notnan_ord) (sub64 e b) -> (valZ e - valZ b <= scale cut)%Z).
  { intros b e Hle Hno. apply scale_spec. rewrite unscale_minus, !unscale_valZ. apply ole_val in Hle. unfold cut.
    destruct (finite_or_inf b) as [Fb|[->| ->]].
    - destruct (finite_or_inf e) as [Fe|[->| ->]].
      + apply Rlt_le. now apply (sub64_gap Fb Fe).
      + exfalso. apply Hno. rewrite (sub64_to_inf Fb). apply olt_val. rewrite val_inf. apply (@val_finite eps64). reflexivity.
      + pose proof (val_finite Fb). rewrite val_neg_inf in *. lra.
    - pose proof (inf_greatest e). lra.
    - destruct (finite_or_inf e) as [Fe|[->| ->]].
      + exfalso. apply Hno. assert (E : sub64 e neg_inf64 = inf64) by (apply notnan_eq; destruct e as [[s|[]| |s k e Hb] Hp]; try discriminate; reflexivity). rewrite E. apply olt_val. rewrite val_inf. apply (@val_finite eps64). reflexivity.
      + exfalso. apply Hno. assert (E : sub64 inf64 neg_inf64 = inf64) by reflexivity. rewrite E. apply olt_val. rewrite val_inf. apply (@val_finite eps64). reflexivity.
      + lra. }
  destruct (@C90_program_bottleneck HI HI' notnan_ord uw zero64 sub64 eps64 d d' R valZ (scale delta) (scale cut) m Hd Hd' Hord HR (Hz _ Hdel) (Hz cut ltac:(unfold cut; lra)) Hn' Hcut Hm Hfit Hfit' L L' fuel fuel' HL HL' Hf Hf')
    as (sizes & sizes' & ess & ess' & printed & printed' & E1 & E2 & H).
  exists sizes, sizes', ess, ess', printed, printed'. split; auto. split; auto. intros q Hq. specialize (H q Hq). cbv zeta in *. destruct H as [_ H].
  pose (g := fun p : Z * Z => (unscale (fst p), unscale (snd p))).
  assert (Hg : forall B : list (bar_line notnan_ord), map (fun line => (val (fst (snd line)), val (snd (snd line)))) B = map g (map (fun line => (valZ (fst (snd line)), valZ (snd (snd line)))) B)).
  { intros B. rewrite map_map. apply map_ext. intros [[k [c1 c2]] [b e]]. unfold g. cbn [fst snd]. now rewrite !unscale_valZ. }
  rewrite !Hg. pose proof (unscale_scale delta) as S1. pose proof (unscale_scale cut) as S2. eapply matching_map; [| | |exact H]; cbv beta.
  - intros [a b] [a' b'] [H1 H2]. cbn [fst snd] in *. unfold within, g. cbn [fst snd]. rewrite <- !unscale_minus, <- !unscale_abs. apply unscale_le in H1, H2. split; lra.
  - intros [a b] H1. cbn [fst snd] in *. unfold no_longer, g. cbn [fst snd]. rewrite <- unscale_minus. apply unscale_le in H1. rewrite unscale_plus in H1. replace (2 * scale delta)%Z with (scale delta + scale delta)%Z in H1 by lia. rewrite unscale_plus in H1. lra.
  - intros [a b] H1. cbn [fst snd] in *. unfold no_longer, g. cbn [fst snd]. rewrite <- unscale_minus. apply unscale_le in H1. rewrite unscale_plus in H1. replace (2 * scale delta)%Z with (scale delta + scale delta)%Z in H1 by lia. rewrite unscale_plus in H1. lra.
Qed.
Print Assumptions C96_rips_program_stability.

(** Two points at distance 0.005, a third one at distance 1 and a fourth one infinitely far: the bar ending at 0.005 is not printed, the one ending at infinity is; the
    edges and triangles entering at infinity pair up, and [inf - inf] is NaN, so nothing is printed for them. *)
Definition d0005 : notnan := @d64 5764607523034235 (-60) eq_refl.
Definition far4 : list (list notnan_ord) :=
  [[zero64; d0005; d1; inf64]; [d0005; zero64; d1; inf64]; [d1; d1; zero64; inf64]; [inf64; inf64; inf64; zero64]].
(** the same three points with the second one moved to 0.01 from the first *)
Definition far4' : list (list notnan_ord) :=
  [[zero64; eps64; d1; inf64]; [eps64; zero64; d1; inf64]; [d1; d1; zero64; inf64]; [inf64; inf64; inf64; zero64]].
Definition shown (r : res (list nat * list (nat * N * notnan_ord) * list (bar_line notnan_ord))) : option (list nat * list (nat * N * spec_float) * list (nat * (N * N) * (spec_float * spec_float))) :=
  match r with Ok (a, b, c) => Some (a, map (fun x => (fst x, sf (snd x))) b, map (fun x => (fst x, (sf (fst (snd x)), sf (snd (snd x))))) c) | _ => None end.
Example C95_ex :
  distance_matrix (F:=notnan_ord) zero64 far4 /\ distance_matrix (F:=notnan_ord) zero64 far4' /\ codes_fit (2 ^ 64) (length far4) 3 /\ covers_simplices (length far4) 3 (map N.of_nat (seq 0 125)) /\
  shown (rips_main list_heaps 700 (2 ^ 64) (zero64 : notnan_ord) sub64 eps64 far4 1) =
    Some ([4; 6], [(0, 1%N, sf zero64)], [(0, (3%N, 16%N), (sf zero64, sf d1)); (0, (4%N, 21%N), (sf zero64, sf inf64))]) /\
  shown (rips_main list_heaps 700 (2 ^ 64) (zero64 : notnan_ord) sub64 eps64 far4' 1) =
    Some ([4; 6], [(0, 1%N, sf zero64)], [(0, (3%N, 16%N), (sf zero64, sf d1)); (0, (4%N, 21%N), (sf zero64, sf inf64))]).
Proof.
  assert (Hdm : forall x, (0 <= val x)%R -> distance_matrix (F:=notnan_ord) zero64 [[zero64; x; d1; inf64]; [x; zero64; d1; inf64]; [d1; d1; zero64; inf64]; [inf64; inf64; inf64; zero64]]).
  { intros x Hx. assert (P1 : (0 <= val d1)%R) by (cbn; apply F2R_ge_0; cbn; lia). assert (P2 : (0 <= val inf64)%R) by (rewrite val_inf; pose proof top_pos; lra).
    assert (Hnn : forall y : notnan, (0 <= val y)%R -> ole (zero64 : notnan_ord) (y : notnan_ord)) by (intros y Hy; apply ole_val; now rewrite val_zero).
    split; [intros row Hr; simpl in Hr; repeat (destruct Hr as [<-|Hr]; [reflexivity|]); destruct Hr|]. split; [|split].
    - intros i j Hi Hj. cbn [length] in Hi, Hj. do 4 (destruct i as [|i]; [do 4 (destruct j as [|j]; [reflexivity|]); lia|]). lia.
    - intros i Hi. cbn [length] in Hi. do 4 (destruct i as [|i]; [reflexivity|]). lia.
    - intros i j Hi Hj. cbn [length] in Hi, Hj. do 4 (destruct i as [|i]; [do 4 (destruct j as [|j]; [unfold dist; cbn [nth]; apply Hnn; auto; rewrite val_zero; lra|]); lia|]). lia. }
  split; [apply Hdm; cbn; apply F2R_ge_0; cbn; lia|]. split; [apply Hdm; cbn; apply F2R_ge_0; cbn; lia|]. split; [exact (proj1 (proj2 C64_ex_hyps))|]. split; [exact (proj2 (proj2 C64_ex_hyps))|].
  split; vm_compute; reflexivity.
Qed.
(** The hypotheses of C96 for these two inputs, with the identity correspondence and [delta = 0.006]. *)
Example C96_ex :
  correspondence (length far4) (length far4') eq /\
  (forall i j i' j', i = j -> i' = j' -> i < length far4 -> i' < length far4 -> j < length far4' -> j' < length far4' ->
     (Rabs (val (dist (zero64 : notnan_ord) far4 i i') - val (dist (zero64 : notnan_ord) far4' j j')) <= 6 / 1000)%R).
Proof.
  split; [split; [intros i Hi; exists i; auto|intros j Hj; exists j; auto]|]. intros i j i' j' <- <- Hi Hi' _ _. change (length far4) with 4 in *.
  assert (E : forall x y : notnan_ord, x = y -> (Rabs (val x - val y) <= 6 / 1000)%R) by (intros x y ->; rewrite Rminus_diag_eq by reflexivity; rewrite Rabs_R0; lra).
  assert (H : (Rabs (val d0005 - val eps64) <= 6 / 1000)%R).
  { rewrite val_eps, bpow_59. change (val d0005) with (IZR 5764607523034235 * / IZR 1152921504606846976)%R. apply Rabs_le. lra. }
  do 4 (destruct i as [|i]; [do 4 (destruct i' as [|i']; [first [exact H|apply E; reflexivity]|]); lia|]). lia.
Qed.
