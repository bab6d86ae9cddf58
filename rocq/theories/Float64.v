(** Double-precision numbers: the type [NotNan<f64>] of the repository as an [ordT], with IEEE 754 addition and subtraction as formalised by Flocq. *)
From Verif Require Import Base.
From Coq Require Import ZArith Reals Lra Lia Bool Eqdep_dec.
From Coq Require Import Floats.SpecFloat.
From Flocq Require Import Core BinarySingleNaN.
Set Implicit Arguments.

#[local] Instance prec_gt_0_53 : Prec_gt_0 53 := eq_refl.
#[local] Instance prec_lt_emax_1024 : Prec_lt_emax 53 1024 := eq_refl.

(** [f64]: IEEE 754 binary64 (one NaN stands for all) *)
Definition f64 : Type := binary_float 53 1024.
Notation Zero := (B754_zero (prec:=53) (emax:=1024)).
Notation Inf := (B754_infinity (prec:=53) (emax:=1024)).
Notation NaN := (B754_nan (prec:=53) (emax:=1024)).

(** [NotNan<f64>] (phlite_rips/src/main.rs 23, phlite_grpph/src/lib.rs 23) up to numerical equality: not NaN, and +0.0 standing for both zeros (ordered_float compares them equal) *)
Definition proper_f64 (x : f64) : bool := match x with B754_nan => false | B754_zero s => negb s | _ => true end.
Definition notnan : Type := { x : f64 | proper_f64 x = true }.
Definition float_of (x : notnan) : f64 := proj1_sig x.

Lemma notnan_eq (x y : notnan) : float_of x = float_of y -> x = y.
Proof.
  destruct x as [x Hx], y as [y Hy]. cbn [float_of proj1_sig]. intros ->. f_equal. apply UIP_dec, bool_dec.
Qed.

(** [NotNan::new] (ordered-float; used at phlite_rips/src/main.rs 28 and phlite_grpph/src/lib.rs 23-55): fails exactly on NaN *)
Definition not_nan (x : f64) : option notnan :=
  match x with
  | B754_nan => None
  | B754_zero _ => Some (exist _ (Zero false) eq_refl)
  | B754_infinity s => Some (exist _ (Inf s) eq_refl)
  | B754_finite s m e H => Some (exist (fun x => proper_f64 x = true) (B754_finite s m e H) eq_refl)
  end.

(** the real number a double stands for, the infinities being put at [2^1024] and [- 2^1024] *)
Definition top : R := bpow radix2 1024.
Definition valf (x : f64) : R := match x with B754_infinity s => if s then (- top)%R else top | _ => B2R x end.
Definition val (x : notnan) : R := valf (float_of x).
Definition finite (x : notnan) : Prop := is_finite (float_of x) = true.

Lemma top_pos : (0 < top)%R.
Proof. apply bpow_gt_0. Qed.

Lemma valf_bounds (x : f64) : (- top <= valf x <= top)%R.
Proof.
  pose proof top_pos. destruct x as [s|[]| |s m e Hb]; cbn [valf]; try (cbn [B2R]; lra); try lra.
  pose proof (abs_B2R_lt_emax 53 1024 (B754_finite s m e Hb)) as A. fold top in A. apply Rabs_def2 in A. lra.
Qed.
Lemma valf_finite (x : f64) : is_finite x = true -> valf x = B2R x /\ (- top < valf x < top)%R.
Proof.
  pose proof top_pos. intros Hf. pose proof (abs_B2R_lt_emax 53 1024 x) as A. fold top in A. apply Rabs_def2 in A. destruct x; try discriminate; cbn [valf] in *; split; auto; lra.
Qed.
Lemma valf_top (x : f64) : is_nan x = false -> valf x = top -> x = Inf false.
Proof.
  pose proof top_pos. intros Hn Ht. destruct x as [s|[]| |s m e Hb]; try discriminate; auto.
  - cbn [valf B2R] in Ht. lra.
  - cbn [valf] in Ht. lra.
  - pose proof (valf_finite (B754_finite s m e Hb) eq_refl). lra.
Qed.
Lemma valf_bot (x : f64) : is_nan x = false -> valf x = (- top)%R -> x = Inf true.
Proof.
  pose proof top_pos. intros Hn Ht. destruct x as [s|[]| |s m e Hb]; try discriminate; auto.
  - cbn [valf B2R] in Ht. lra.
  - cbn [valf] in Ht. lra.
  - pose proof (valf_finite (B754_finite s m e Hb) eq_refl). lra.
Qed.
Lemma valf_between (x : f64) : is_nan x = false -> (- top < valf x < top)%R -> is_finite x = true.
Proof. pose proof top_pos. destruct x as [s|[]| |s m e Hb]; cbn [valf]; intros Hn Ht; try discriminate; auto; lra. Qed.

Lemma compare_val (x y : f64) : is_nan x = false -> is_nan y = false -> Bcompare x y = Some (Rcompare (valf x) (valf y)).
Proof.
  intros Hx Hy. destruct (is_finite x) eqn:Fx, (is_finite y) eqn:Fy.
  - rewrite Bcompare_correct; auto. now rewrite (proj1 (valf_finite _ Fx)), (proj1 (valf_finite _ Fy)).
  - pose proof (proj2 (valf_finite _ Fx)). destruct y as [|s| |]; try discriminate. cbn [valf].
    destruct x as [|sx| |sx m e Hb]; try discriminate; destruct s; cbn [Bcompare B2SF SFcompare]; f_equal; symmetry; try (apply Rcompare_Gt; lra); try (apply Rcompare_Lt; lra).
    all: destruct sx; first [apply Rcompare_Gt; lra|apply Rcompare_Lt; lra].
  - pose proof (proj2 (valf_finite _ Fy)). destruct x as [|s| |]; try discriminate. cbn [valf].
    destruct y as [|sy| |sy m e Hb]; try discriminate; destruct s; cbn [Bcompare B2SF SFcompare]; f_equal; symmetry; first [apply Rcompare_Gt; lra|apply Rcompare_Lt; lra].
  - pose proof top_pos. destruct x as [|s| |], y as [|s'| |]; try discriminate. destruct s, s'; cbn [Bcompare B2SF SFcompare valf]; f_equal; symmetry;
      first [apply Rcompare_Eq; lra|apply Rcompare_Gt; lra|apply Rcompare_Lt; lra].
Qed.

Lemma proper_not_nan (x : f64) : proper_f64 x = true -> is_nan x = false.
Proof. destruct x; auto; discriminate. Qed.
Lemma float_not_nan (x : notnan) : is_nan (float_of x) = false.
Proof. apply proper_not_nan, (proj2_sig x). Qed.

Lemma finite_nonzero s m e H : B2R (B754_finite (prec:=53) (emax:=1024) s m e H) <> 0%R.
Proof.
  cbn [B2R]. destruct s; cbn [cond_Zopp].
  - apply Rlt_not_eq. apply F2R_lt_0. reflexivity.
  - apply Rgt_not_eq. apply F2R_gt_0. reflexivity.
Qed.

Lemma val_inj (x y : notnan) : val x = val y -> x = y.
Proof.
  intros E. apply notnan_eq. destruct x as [x Hx], y as [y Hy]. unfold val in E. cbn [float_of proj1_sig] in *.
  destruct (is_finite x) eqn:Fx, (is_finite y) eqn:Fy.
  - rewrite (proj1 (valf_finite _ Fx)), (proj1 (valf_finite _ Fy)) in E.
    destruct x as [[]| | |sx mx ex Bx]; try discriminate; destruct y as [[]| | |sy my ey By]; try discriminate; auto; try (apply B2R_inj; auto).
    + exfalso. symmetry in E. revert E. apply finite_nonzero.
    + exfalso. revert E. apply finite_nonzero.
  - exfalso. pose proof (proj2 (valf_finite _ Fx)). pose proof top_pos. destruct y as [|[]| |]; try discriminate; cbn [valf] in E; lra.
  - exfalso. pose proof (proj2 (valf_finite _ Fy)). pose proof top_pos. destruct x as [|[]| |]; try discriminate; cbn [valf] in E; lra.
  - pose proof top_pos. destruct x as [|[]| |], y as [|[]| |]; try discriminate; auto; cbn [valf] in E; lra.
Qed.

(** [NotNan]'s [Ord] (ordered-float: [partial_cmp] of the doubles, which always succeeds) *)
Definition notnan_cmp (x y : notnan) : comparison := match Bcompare (float_of x) (float_of y) with Some c => c | None => Eq end.
Lemma notnan_cmp_val x y : notnan_cmp x y = Rcompare (val x) (val y).
Proof. unfold notnan_cmp. now rewrite compare_val by apply float_not_nan. Qed.
Lemma notnan_cmp_eq x y : notnan_cmp x y = Eq <-> x = y.
Proof.
  rewrite notnan_cmp_val. split; [|intros ->; apply Rcompare_Eq; reflexivity]. intros E. apply val_inj. now apply Rcompare_Eq_inv.
Qed.
Lemma notnan_cmp_opp x y : notnan_cmp y x = CompOpp (notnan_cmp x y).
Proof. rewrite !notnan_cmp_val. apply Rcompare_sym. Qed.
Lemma notnan_cmp_trans x y w : notnan_cmp x y = Lt -> notnan_cmp y w = Lt -> notnan_cmp x w = Lt.
Proof. rewrite !notnan_cmp_val. intros H1 H2. apply Rcompare_Lt_inv in H1, H2. apply Rcompare_Lt. lra. Qed.
Definition notnan_ord : ordT := @OrdT notnan notnan_cmp notnan_cmp_eq notnan_cmp_opp notnan_cmp_trans.

Lemma ole_val (x y : notnan_ord) : ole x y <-> (val x <= val y)%R.
Proof.
  unfold ole. cbn [cmp notnan_ord]. rewrite notnan_cmp_val. destruct (Rcompare_spec (val x) (val y)); split; intros; try lra; congruence.
Qed.
Lemma olt_val (x y : notnan_ord) : olt x y <-> (val x < val y)%R.
Proof.
  unfold olt. cbn [cmp notnan_ord]. rewrite notnan_cmp_val. destruct (Rcompare_spec (val x) (val y)); split; intros; try lra; congruence.
Qed.

(** constants *)
Definition zero64 : notnan := exist (fun x => proper_f64 x = true) (Zero false) eq_refl.
Definition inf64 : notnan := exist (fun x => proper_f64 x = true) (Inf false) eq_refl.
Definition neg_inf64 : notnan := exist (fun x => proper_f64 x = true) (Inf true) eq_refl.

(** IEEE 754 addition (of path lengths: petgraph's dijkstra called from phlite_grpph/src/lib.rs 23-55) and subtraction (phlite_rips/src/main.rs 83), rounding to the nearest, ties to even.  [oo - oo] is NaN, for which a value that compares like NaN with every positive
    threshold is returned (it does not arise when the arguments of [add64] are not negative). *)
Definition or_nan (x : f64) : notnan := match not_nan x with Some y => y | None => neg_inf64 end.
Definition add64 (x y : notnan) : notnan := or_nan (Bplus mode_NE (float_of x) (float_of y)).
Definition sub64 (x y : notnan) : notnan := or_nan (Bminus mode_NE (float_of x) (float_of y)).

Definition rnd (r : R) : R := round radix2 (fexp 53 1024) ZnearestE r.
(** rounding to the range of doubles: overflow gives an infinity *)
Definition clamp (r : R) : R := Rmax (- top) (Rmin top r).

#[local] Instance fexp_valid : Valid_exp (fexp 53 1024) := FLT_exp_valid (3 - 1024 - 53) 53.
Lemma rnd_mono a b : (a <= b)%R -> (rnd a <= rnd b)%R.
Proof. apply round_le; typeclasses eauto. Qed.
Lemma rnd_0 : rnd 0 = 0%R.
Proof. apply round_0. typeclasses eauto. Qed.
Lemma rnd_B2R (x : f64) : rnd (B2R x) = B2R x.
Proof. apply round_generic; [typeclasses eauto|]. apply generic_format_B2R. Qed.
Lemma clamp_mono a b : (a <= b)%R -> (clamp a <= clamp b)%R.
Proof. intros H. unfold clamp, Rmax, Rmin. pose proof top_pos. repeat destruct (Rle_dec _ _); lra. Qed.
Lemma clamp_id a : (- top <= a <= top)%R -> clamp a = a.
Proof. intros H. unfold clamp, Rmax, Rmin. repeat destruct (Rle_dec _ _); lra. Qed.
Lemma clamp_up a : (top <= a)%R -> clamp a = top.
Proof. intros H. pose proof top_pos. unfold clamp, Rmax, Rmin. repeat destruct (Rle_dec _ _); lra. Qed.
Lemma clamp_down a : (a <= - top)%R -> clamp a = (- top)%R.
Proof. intros H. pose proof top_pos. unfold clamp, Rmax, Rmin. repeat destruct (Rle_dec _ _); lra. Qed.

Lemma val_or_nan (x : f64) : is_nan x = false -> val (or_nan x) = valf x.
Proof. destruct x as [[]| | |]; try discriminate; reflexivity. Qed.

Lemma sign_nonneg (x : f64) : is_finite x = true -> Bsign x = false -> (0 <= B2R x)%R.
Proof. destruct x as [[]| | |[] m e H]; try discriminate; intros _ _; cbn [B2R]; try lra. apply F2R_ge_0. now destruct m. Qed.
Lemma sign_nonpos (x : f64) : is_finite x = true -> Bsign x = true -> (B2R x <= 0)%R.
Proof. destruct x as [[]| | |[] m e H]; try discriminate; intros _ _; cbn [B2R]; try lra. apply F2R_le_0. cbn. lia. Qed.

Lemma plus_val (x y : f64) : is_finite x = true -> is_finite y = true ->
  is_nan (Bplus mode_NE x y) = false /\ valf (Bplus mode_NE x y) = clamp (rnd (B2R x + B2R y)).
Proof.
  intros Fx Fy. pose proof (Bplus_correct 53 1024 _ _ mode_NE x y Fx Fy) as H. change (round_mode mode_NE) with ZnearestE in H. fold (rnd (B2R x + B2R y)) in H. fold top in H.
  pose proof top_pos. destruct (Rlt_bool_spec (Rabs (rnd (B2R x + B2R y))) top) as [Hlt|Hge].
  - destruct H as (E & Hf & _). split; [destruct (Bplus mode_NE x y); auto; discriminate|]. rewrite (proj1 (valf_finite _ Hf)), E. apply Rabs_def2 in Hlt. rewrite clamp_id; lra.
  - destruct H as [E Hs]. destruct (Bsign x) eqn:Sx; cbn in E; destruct (Bplus mode_NE x y) as [|s| |]; try discriminate; injection E as ->; split; auto; cbn [valf]; symmetry.
    + apply clamp_down. pose proof (sign_nonpos _ Fx Sx). symmetry in Hs. pose proof (sign_nonpos _ Fy Hs).
      assert (rnd (B2R x + B2R y) <= 0)%R by (rewrite <- rnd_0; apply rnd_mono; lra). rewrite Rabs_left1 in Hge; lra.
    + apply clamp_up. pose proof (sign_nonneg _ Fx Sx). symmetry in Hs. pose proof (sign_nonneg _ Fy Hs).
      assert (0 <= rnd (B2R x + B2R y))%R by (rewrite <- rnd_0; apply rnd_mono; lra). rewrite Rabs_pos_eq in Hge; lra.
Qed.
Lemma minus_val (x y : f64) : is_finite x = true -> is_finite y = true ->
  is_nan (Bminus mode_NE x y) = false /\ valf (Bminus mode_NE x y) = clamp (rnd (B2R x - B2R y)).
Proof.
  intros Fx Fy. pose proof (Bminus_correct 53 1024 _ _ mode_NE x y Fx Fy) as H. change (round_mode mode_NE) with ZnearestE in H. fold (rnd (B2R x - B2R y)) in H. fold top in H.
  pose proof top_pos. destruct (Rlt_bool_spec (Rabs (rnd (B2R x - B2R y))) top) as [Hlt|Hge].
  - destruct H as (E & Hf & _). split; [destruct (Bminus mode_NE x y); auto; discriminate|]. rewrite (proj1 (valf_finite _ Hf)), E. apply Rabs_def2 in Hlt. rewrite clamp_id; lra.
  - destruct H as [E Hs]. destruct (Bsign x) eqn:Sx; cbn in E; destruct (Bminus mode_NE x y) as [|s| |]; try discriminate; injection E as ->; split; auto; cbn [valf]; symmetry;
      destruct (Bsign y) eqn:Sy; try discriminate.
    + apply clamp_down. pose proof (sign_nonpos _ Fx Sx). pose proof (sign_nonneg _ Fy Sy).
      assert (rnd (B2R x - B2R y) <= 0)%R by (rewrite <- rnd_0; apply rnd_mono; lra). rewrite Rabs_left1 in Hge; lra.
    + apply clamp_up. pose proof (sign_nonneg _ Fx Sx). pose proof (sign_nonpos _ Fy Sy).
      assert (0 <= rnd (B2R x - B2R y))%R by (rewrite <- rnd_0; apply rnd_mono; lra). rewrite Rabs_pos_eq in Hge; lra.
Qed.

(** ** What the operations compute *)
Lemma add64_finite x y : finite x -> finite y -> val (add64 x y) = clamp (rnd (val x + val y)).
Proof.
  intros Fx Fy. destruct (plus_val _ _ Fx Fy) as [Hn E]. unfold add64. rewrite val_or_nan by exact Hn. rewrite E. unfold val. now rewrite (proj1 (valf_finite _ Fx)), (proj1 (valf_finite _ Fy)).
Qed.
Lemma sub64_finite x y : finite x -> finite y -> val (sub64 x y) = clamp (rnd (val x - val y)).
Proof.
  intros Fx Fy. destruct (minus_val _ _ Fx Fy) as [Hn E]. unfold sub64. rewrite val_or_nan by exact Hn. rewrite E. unfold val. now rewrite (proj1 (valf_finite _ Fx)), (proj1 (valf_finite _ Fy)).
Qed.
Lemma finite_or_inf (x : notnan) : finite x \/ x = inf64 \/ x = neg_inf64.
Proof.
  destruct x as [[s|[]| |s m e Hb] Hx]; try discriminate; [left; reflexivity|right; right|right; left|left; reflexivity]; apply notnan_eq; reflexivity.
Qed.
Lemma val_finite x : finite x -> (- top < val x < top)%R.
Proof. intros H. apply (valf_finite _ H). Qed.
Lemma val_inf : val inf64 = top.
Proof. reflexivity. Qed.
Lemma val_neg_inf : val neg_inf64 = (- top)%R.
Proof. reflexivity. Qed.
Lemma val_zero : val zero64 = 0%R.
Proof. reflexivity. Qed.
Lemma rnd_val x : finite x -> rnd (val x) = val x.
Proof. intros H. unfold val. rewrite (proj1 (valf_finite _ H)). apply rnd_B2R. Qed.
Lemma add64_inf_l y : y <> neg_inf64 -> add64 inf64 y = inf64.
Proof.
  intros Hy. apply notnan_eq. destruct y as [[s|[]| |s m e Hb] Hp]; try discriminate; try reflexivity. exfalso. apply Hy. now apply notnan_eq.
Qed.
Lemma add64_inf_r x : x <> neg_inf64 -> add64 x inf64 = inf64.
Proof.
  intros Hx. apply notnan_eq. destruct x as [[s|[]| |s m e Hb] Hp]; try discriminate; try reflexivity. exfalso. apply Hx. now apply notnan_eq.
Qed.
Lemma add64_neg_l y : add64 neg_inf64 y = neg_inf64.
Proof. apply notnan_eq. destruct y as [[s|[]| |s m e Hb] Hp]; try discriminate; reflexivity. Qed.
Lemma add64_neg_r x : add64 x neg_inf64 = neg_inf64.
Proof. apply notnan_eq. destruct x as [[s|[]| |s m e Hb] Hp]; try discriminate; reflexivity. Qed.
Lemma sub64_inf : sub64 inf64 inf64 = neg_inf64.
Proof. reflexivity. Qed.

Lemma neg_inf_least x : (val neg_inf64 <= val x)%R.
Proof. apply valf_bounds. Qed.
Lemma inf_greatest x : (val x <= val inf64)%R.
Proof. apply valf_bounds. Qed.

Lemma add64_comm x y : add64 x y = add64 y x.
Proof.
  destruct (finite_or_inf x) as [Fx|[->| ->]], (finite_or_inf y) as [Fy|[->| ->]]; try reflexivity.
  - apply val_inj. rewrite !add64_finite by auto. now rewrite Rplus_comm.
  - rewrite add64_inf_l, add64_inf_r; auto; intros ->; discriminate.
  - now rewrite add64_neg_l, add64_neg_r.
  - rewrite add64_inf_l, add64_inf_r; auto; intros ->; discriminate.
  - now rewrite add64_neg_l, add64_neg_r.
Qed.
Lemma add64_mono_l a b w : (val a <= val b)%R -> (val (add64 a w) <= val (add64 b w))%R.
Proof.
  intros H. destruct (finite_or_inf w) as [Fw|[->| ->]].
  - destruct (finite_or_inf a) as [Fa|[->| ->]].
    + destruct (finite_or_inf b) as [Fb|[->| ->]].
      * rewrite !add64_finite by auto. apply clamp_mono, rnd_mono. lra.
      * rewrite (add64_inf_l (y:=w)); [apply inf_greatest|]. intros ->. discriminate.
      * exfalso. pose proof (val_finite Fa). rewrite val_neg_inf in H. lra.
    + assert (b = inf64) as ->; [|lra]. apply val_inj. pose proof (inf_greatest b). lra.
    + rewrite add64_neg_l. apply neg_inf_least.
  - destruct (finite_or_inf b) as [Fb|[->| ->]].
    + rewrite (add64_inf_r (x:=b)); [apply inf_greatest|]. intros ->. discriminate.
    + rewrite (add64_inf_r (x:=inf64)); [apply inf_greatest|discriminate].
    + assert (a = neg_inf64) as ->; [|lra]. apply val_inj. pose proof (neg_inf_least a). lra.
  - rewrite !add64_neg_r. lra.
Qed.
Lemma add64_mono a a' b b' : (val a <= val a')%R -> (val b <= val b')%R -> (val (add64 a b) <= val (add64 a' b'))%R.
Proof.
  intros H1 H2. apply Rle_trans with (val (add64 a' b)); [now apply add64_mono_l|]. rewrite (add64_comm a' b), (add64_comm a' b'). now apply add64_mono_l.
Qed.
Lemma add64_zero_l w : add64 zero64 w = w.
Proof.
  destruct (finite_or_inf w) as [Fw|[->| ->]]; try reflexivity. apply val_inj. rewrite add64_finite by (auto; reflexivity). rewrite val_zero, Rplus_0_l, rnd_val by auto.
  apply clamp_id. pose proof (val_finite Fw). lra.
Qed.
Lemma add64_zero_r w : add64 w zero64 = w.
Proof. rewrite add64_comm. apply add64_zero_l. Qed.
