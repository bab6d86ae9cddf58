(** The ideal field of rationals as a coefficient type, and the relation between
    the machine type [Q(isize, usize)] (fields.rs 253-304) and it. *)
From Verif Require Import Base Fields FieldsFacts.
From Coq Require Import QArith Qcanon Eqdep_dec Znumtheory Zquot.
Local Open Scope Z_scope.

(* ------------------------------------------------------------------ *)
(** ** The ideal coefficient type: non-zero canonical rationals *)

Definition qnz : Type := { x : Qc | Qc_eq_bool x 0%Qc = false }.
Definition qv (x : qnz) : Qc := proj1_sig x.
Definition qmk (x : Qc) : option qnz :=
  match Sumbool.sumbool_of_bool (Qc_eq_bool x 0%Qc) with
  | left _ => None
  | right H => Some (exist _ x H)
  end.
Definition oqv (x : option qnz) : Qc := match x with Some a => qv a | None => 0%Qc end.

Lemma qeqb_iff x y : Qc_eq_bool x y = true <-> x = y.
Proof. split; [apply Qc_eq_bool_correct|]. intros <-. unfold Qc_eq_bool. destruct (Qc_eq_dec x x); congruence. Qed.
Lemma qv_nz x : qv x <> 0%Qc.
Proof. destruct x as [x H]. simpl. intros E. apply qeqb_iff in E. congruence. Qed.
Lemma qnz_eq x y : qv x = qv y -> x = y.
Proof.
  destruct x as [x Hx], y as [y Hy]. simpl. intros ->. f_equal. apply UIP_dec. apply Bool.bool_dec.
Qed.
Lemma oqv_mk x : oqv (qmk x) = x.
Proof.
  unfold qmk. destruct (Sumbool.sumbool_of_bool _) as [H|H]; simpl; auto. apply qeqb_iff in H. now rewrite H.
Qed.
Lemma oqv_inj x y : oqv x = oqv y -> x = y.
Proof.
  destruct x as [x|], y as [y|]; simpl; auto; intros E.
  - f_equal. now apply qnz_eq.
  - now apply qv_nz in E.
  - symmetry in E. now apply qv_nz in E.
Qed.

Definition qget (x : Qc) (H : x <> 0%Qc) : qnz :=
  exist _ x (match Sumbool.sumbool_of_bool (Qc_eq_bool x 0%Qc) with
             | left E => False_ind _ (H (proj1 (qeqb_iff _ _) E))
             | right E => E end).
Lemma qc_mul_nz x y : x <> 0%Qc -> y <> 0%Qc -> (x * y)%Qc <> 0%Qc.
Proof. intros Hx Hy E. apply Qcmult_integral in E. tauto. Qed.
Lemma qc_neg_nz x : x <> 0%Qc -> (- x)%Qc <> 0%Qc.
Proof. intros Hx E. apply Hx. rewrite <- (Qcopp_involutive x), E. reflexivity. Qed.
Lemma qc_inv_nz x : x <> 0%Qc -> (/ x)%Qc <> 0%Qc.
Proof. intros Hx E. pose proof (Qcmult_inv_r x Hx) as H. rewrite E in H. rewrite Qcmult_0_r in H. discriminate. Qed.
Lemma qc_one_nz : 1%Qc <> 0%Qc.
Proof. discriminate. Qed.

Definition qi_add (x y : qnz) : option qnz := qmk (qv x + qv y)%Qc.
Definition qi_mul (x y : qnz) : qnz := qget (qv x * qv y)%Qc (qc_mul_nz _ _ (qv_nz x) (qv_nz y)).
Definition qi_one : qnz := qget 1%Qc qc_one_nz.
Definition qi_neg (x : qnz) : qnz := qget (- qv x)%Qc (qc_neg_nz _ (qv_nz x)).
Definition qi_inv (x : qnz) : qnz := qget (/ qv x)%Qc (qc_inv_nz _ (qv_nz x)).
Definition qi_eqb (x y : qnz) : bool := Qc_eq_bool (qv x) (qv y).

Lemma oqv_add x y : oqv (lift_add qi_add x y) = (oqv x + oqv y)%Qc.
Proof.
  destruct x as [x|], y as [y|]; simpl.
  - unfold qi_add. apply oqv_mk.
  - symmetry. apply Qcplus_0_r.
  - symmetry. apply Qcplus_0_l.
  - reflexivity.
Qed.
Lemma oqv_mul x y : oqv (lift_mul qi_mul x y) = (oqv x * oqv y)%Qc.
Proof.
  destruct x as [x|], y as [y|]; cbn [lift_mul oqv]; [reflexivity|ring|ring|ring].
Qed.
Lemma oqv_neg x : oqv (lift_map qi_neg x) = (- oqv x)%Qc.
Proof. destruct x as [x|]; reflexivity. Qed.

Lemma q_field : is_field qnz qi_add qi_mul qi_one qi_neg qi_inv.
Proof.
  apply is_field_intro.
  - intros x y. apply oqv_inj. rewrite !oqv_add. ring.
  - intros x y z. apply oqv_inj. rewrite !oqv_add. ring.
  - intros x. apply oqv_inj. rewrite oqv_add, oqv_neg. simpl. ring.
  - intros x y. apply oqv_inj. rewrite !oqv_mul. ring.
  - intros x y z. apply oqv_inj. rewrite !oqv_mul. ring.
  - intros x. apply oqv_inj. rewrite oqv_mul. simpl. ring.
  - intros x y z. apply oqv_inj. rewrite oqv_add, !oqv_mul, oqv_add. ring.
  - intros x. apply qnz_eq. simpl. apply Qcmult_inv_l. apply qv_nz.
Qed.
Lemma qi_eqb_eq x y : qi_eqb x y = true <-> x = y.
Proof. unfold qi_eqb. rewrite qeqb_iff. split; [apply qnz_eq|now intros ->]. Qed.

Definition Q_coeff : coeffT := CoeffT qnz qi_eqb qi_add qi_mul qi_one qi_neg qi_inv qi_eqb_eq q_field.

(* ------------------------------------------------------------------ *)
(** ** Machine values representing rationals *)

(** the rational number a machine value stands for *)
Definition mq_val (a : mq) : Q := Qmake (q_num a) (Z.to_pos (q_den a)).
(** lowest terms, positive denominator, within the machine types *)
Definition mq_lowest (a : mq) : Prop :=
  q_num a <> 0 /\ 0 < q_den a /\ Z.gcd (q_num a) (q_den a) = 1 /\
  in_isize (q_num a) = true /\ in_usize (q_den a) = true.

(** lowest-terms values are equal iff they stand for the same rational *)
Lemma lowest_val_inj a b : mq_lowest a -> mq_lowest b -> Qeq (mq_val a) (mq_val b) -> a = b.
Proof.
  intros (_ & Ha & Ga & _) (_ & Hb & Gb & _) E.
  assert (Ra : Qred (mq_val a) = mq_val a).
  { apply Qred_iff. unfold mq_val. simpl. rewrite Z2Pos.id; auto. }
  assert (Rb : Qred (mq_val b) = mq_val b).
  { apply Qred_iff. unfold mq_val. simpl. rewrite Z2Pos.id; auto. }
  apply Qred_complete in E. rewrite Ra, Rb in E. unfold mq_val in E. injection E as E1 E2.
  destruct a as [na da], b as [nb db]; simpl in *. apply Z2Pos.inj in E2; auto. congruence.
Qed.

Definition fits (z : Z) : Prop := - 2 ^ 63 < z < 2 ^ 63.

Lemma to_isize_small z : - 2 ^ 63 <= z < 2 ^ 63 -> to_isize z = z.
Proof. intros H. unfold to_isize. rewrite Z.mod_small; lia. Qed.
Lemma to_isize_big z : 2 ^ 63 <= z < 2 ^ 64 -> to_isize z = z - 2 ^ 64.
Proof.
  intros H. unfold to_isize. replace (z + 2 ^ 63) with ((z - 2 ^ 63) + 1 * 2 ^ 64) by lia.
  rewrite Z.mod_add by lia. rewrite Z.mod_small by lia. lia.
Qed.
Lemma in_isize_iff z : in_isize z = true <-> - 2 ^ 63 <= z < 2 ^ 63.
Proof. unfold in_isize. rewrite andb_true_iff, Z.leb_le, Z.ltb_lt. tauto. Qed.
Lemma in_usize_iff z : in_usize z = true <-> 0 <= z < 2 ^ 64.
Proof. unfold in_usize. rewrite andb_true_iff, Z.leb_le, Z.ltb_lt. tauto. Qed.
Lemma in_isize_fits z : fits z -> in_isize z = true.
Proof. unfold fits. rewrite in_isize_iff. lia. Qed.

(** quotients by a common divisor *)
Lemma quot_exact a g : g <> 0 -> (g | a) -> Z.quot a g = a / g.
Proof.
  intros Hg [k ->]. rewrite Z.quot_mul by auto. rewrite Z.div_mul; auto.
Qed.

(** [reduce] puts a fraction in lowest terms, provided the gcd is below 2^63 *)
Lemma q_reduce_spec n d : n <> 0 -> 0 < d < 2 ^ 64 -> in_isize n = true -> Z.gcd n d < 2 ^ 63 ->
  exists r, q_reduce (MQ n d) = Ok r /\ mq_lowest r /\ Qeq (mq_val r) (Qmake n (Z.to_pos d)).
Proof.
  intros Hn Hd Hni Hg. unfold q_reduce. cbn [q_num q_den]. rewrite Z.gcd_abs_l.
  set (g := Z.gcd n d) in *.
  assert (Hgp : 0 < g).
  { pose proof (Z.gcd_nonneg n d). destruct (Z.eq_dec g 0) as [E|]; [|unfold g in *; lia].
    unfold g in E. apply Z.gcd_eq_0_l in E. congruence. }
  assert (Dn : (g | n)) by apply Z.gcd_divide_l. assert (Dd : (g | d)) by apply Z.gcd_divide_r.
  rewrite to_isize_small by lia. unfold isize_div, usize_div.
  destruct (Z.eqb_spec g 0) as [|_]; [lia|]. rewrite quot_exact by (auto; lia).
  destruct Dn as [kn En], Dd as [kd Ed].
  assert (En' : n / g = kn) by (rewrite En; apply Z.div_mul; lia).
  assert (Ed' : d / g = kd) by (rewrite Ed; apply Z.div_mul; lia).
  rewrite En', Ed'. apply in_isize_iff in Hni.
  assert (Hkd : 0 < kd) by nia. assert (kd <= d) by nia.
  assert (Hkn : - 2 ^ 63 <= kn < 2 ^ 63) by nia.
  destruct (in_isize kn) eqn:Ei; [|rewrite <- in_isize_iff in Hkn; congruence]. cbn [bind].
  eexists. split; [reflexivity|]. split.
  - repeat split; cbn [q_num q_den]; auto.
    + intros ->. apply Hn. rewrite En. lia.
    + assert (Z.gcd (n / g) (d / g) = 1); [|now rewrite En', Ed' in H0].
      apply Z.gcd_div_gcd; [lia|reflexivity].
    + apply in_usize_iff. lia.
  - unfold mq_val, Qeq. cbn [q_num q_den Qnum Qden]. rewrite !Z2Pos.id by lia.
    transitivity (kn * (kd * g)); [now rewrite <- Ed|]. transitivity ((kn * g) * kd); [ring|now rewrite <- En].
Qed.

(** exactness of the four operations, first in the form "panics or exact" (overflow checks on) *)
Lemma gcd_big n d : n <> 0 -> 0 < d < 2 ^ 64 -> in_isize n = true -> 2 ^ 63 <= Z.gcd n d -> n = - 2 ^ 63 /\ d = 2 ^ 63.
Proof.
  intros Hn Hd Hi Hg. apply in_isize_iff in Hi.
  destruct (Z.gcd_divide_l n d) as [kn En], (Z.gcd_divide_r n d) as [kd Ed].
  set (g := Z.gcd n d) in *. assert (kd = 1) by nia. assert (kn <> 0) by (intros ->; lia). assert (kn = -1) by nia. nia.
Qed.

Definition q_exact (r : res mq) (v : Q) : Prop := exists q, r = Ok q /\ mq_lowest q /\ Qeq (mq_val q) v.
Definition q_exact_opt (r : res (option mq)) (v : Q) : Prop :=
  (Qeq v 0 /\ r = Ok None) \/ (exists q, r = Ok (Some q) /\ mq_lowest q /\ Qeq (mq_val q) v).

Lemma isize_op_ok pf z : - 2 ^ 63 <= z < 2 ^ 63 -> isize_op pf z = Ok z.
Proof. intros H. unfold isize_op. apply in_isize_iff in H. now rewrite H. Qed.
Lemma usize_op_ok pf z : 0 <= z < 2 ^ 64 -> usize_op pf z = Ok z.
Proof. intros H. unfold usize_op. apply in_usize_iff in H. now rewrite H. Qed.
Lemma isize_op_debug z : isize_op Debug z = Ok z /\ - 2 ^ 63 <= z < 2 ^ 63 \/ isize_op Debug z = Panic.
Proof. unfold isize_op. destruct (in_isize z) eqn:E; auto. apply in_isize_iff in E. auto. Qed.
Lemma usize_op_debug z : usize_op Debug z = Ok z /\ 0 <= z < 2 ^ 64 \/ usize_op Debug z = Panic.
Proof. unfold usize_op. destruct (in_usize z) eqn:E; auto. apply in_usize_iff in E. auto. Qed.

Lemma lowest_bounds a : mq_lowest a -> q_num a <> 0 /\ 0 < q_den a < 2 ^ 64 /\ - 2 ^ 63 <= q_num a < 2 ^ 63 /\ Z.gcd (q_num a) (q_den a) = 1.
Proof. intros (H1 & H2 & H3 & H4 & H5). apply in_isize_iff in H4. apply in_usize_iff in H5. auto with zarith. Qed.

Lemma mul_val a b : mq_lowest a -> mq_lowest b ->
  Qeq (Qmake (q_num a * q_num b) (Z.to_pos (q_den a * q_den b))) (mq_val a * mq_val b)%Q.
Proof.
  intros Ha Hb. apply lowest_bounds in Ha, Hb. unfold Qeq, mq_val. simpl. rewrite Pos2Z.inj_mul, !Z2Pos.id by nia. ring.
Qed.

Lemma q_mul_exact pf a b : mq_lowest a -> mq_lowest b ->
  fits (q_num a * q_num b) -> q_den a * q_den b < 2 ^ 63 ->
  q_exact (q_mul pf a b) (mq_val a * mq_val b)%Q.
Proof.
  intros Ha Hb Hn Hd. unfold fits in Hn. unfold q_mul.
  pose proof (lowest_bounds a Ha) as Ba. pose proof (lowest_bounds b Hb) as Bb.
  rewrite isize_op_ok by lia. cbn [bind]. rewrite usize_op_ok by nia. cbn [bind].
  destruct (q_reduce_spec (q_num a * q_num b) (q_den a * q_den b)) as (r & E & Hl & Hv); try nia.
  - apply in_isize_iff. lia.
  - pose proof (Z.gcd_divide_r (q_num a * q_num b) (q_den a * q_den b)) as D. apply Z.divide_pos_le in D; nia.
  - exists r. split; auto. split; auto. rewrite Hv. now apply mul_val.
Qed.

Lemma q_mul_debug a b : mq_lowest a -> mq_lowest b ->
  ~ (q_num a * q_num b = - 2 ^ 63 /\ q_den a * q_den b = 2 ^ 63) ->
  q_mul Debug a b = Panic \/ q_exact (q_mul Debug a b) (mq_val a * mq_val b)%Q.
Proof.
  intros Ha Hb Hx. unfold q_mul.
  pose proof (lowest_bounds a Ha) as Ba. pose proof (lowest_bounds b Hb) as Bb.
  destruct (isize_op_debug (q_num a * q_num b)) as [[-> Hn]| ->]; [|now left]. cbn [bind].
  destruct (usize_op_debug (q_den a * q_den b)) as [[-> Hd]| ->]; [|now left]. cbn [bind]. right.
  destruct (q_reduce_spec (q_num a * q_num b) (q_den a * q_den b)) as (r & E & Hl & Hv); try nia.
  - now apply in_isize_iff.
  - destruct (Z_lt_le_dec (Z.gcd (q_num a * q_num b) (q_den a * q_den b)) (2 ^ 63)) as [|G]; auto.
    exfalso. apply Hx. apply gcd_big; try nia; auto. now apply in_isize_iff.
  - exists r. split; auto. split; auto. rewrite Hv. now apply mul_val.
Qed.
Lemma q_mul_wrong a b pf : q_num a * q_num b = - 2 ^ 63 -> q_den a * q_den b = 2 ^ 63 ->
  q_mul pf a b = Ok (MQ 1 1).
Proof.
  intros En Ed. unfold q_mul. rewrite En, Ed. destruct pf; reflexivity.
Qed.

(** the least common denominator *)
Lemma lcm_facts a b : 0 < a -> 0 < b ->
  let l := a * (b / Z.gcd a b) in l = Z.lcm a b /\ 0 < l /\ (a | l) /\ (b | l).
Proof.
  intros Ha Hb l.
  assert (El : l = Z.lcm a b).
  { unfold Z.lcm. fold l. rewrite Z.abs_eq; auto. unfold l. apply Z.mul_nonneg_nonneg; [lia|].
    apply Z.div_pos; [lia|]. pose proof (Z.gcd_nonneg a b). assert (Z.gcd a b <> 0); [|lia].
    intros E. apply Z.gcd_eq_0_l in E. lia. }
  split; auto. rewrite El. split; [|split; [apply Z.divide_lcm_l|apply Z.divide_lcm_r]].
  pose proof (Z.lcm_nonneg a b). assert (Z.lcm a b <> 0); [|lia]. intros E. apply Z.lcm_eq_0 in E. lia.
Qed.

Lemma add_val a b : mq_lowest a -> mq_lowest b ->
  let l := Z.lcm (q_den a) (q_den b) in
  Qeq (Qmake (l / q_den a * q_num a + l / q_den b * q_num b) (Z.to_pos l)) (mq_val a + mq_val b)%Q.
Proof.
  intros Ha Hb l. apply lowest_bounds in Ha, Hb.
  destruct (lcm_facts (q_den a) (q_den b)) as (El & Hl & Da & Db); try lia.
  unfold l. rewrite <- El. cbv zeta in *. set (L := q_den a * (q_den b / Z.gcd (q_den a) (q_den b))) in *.
  unfold Qeq, mq_val, Qplus. cbn [Qnum Qden]. rewrite Pos2Z.inj_mul, !Z2Pos.id by lia.
  destruct Da as [ka Ea], Db as [kb Eb].
  assert (E1 : L / q_den a = ka) by (rewrite Ea; apply Z.div_mul; lia).
  assert (E2 : L / q_den b = kb) by (rewrite Eb; apply Z.div_mul; lia).
  rewrite E1, E2.
  replace ((ka * q_num a + kb * q_num b) * (q_den a * q_den b))
    with (q_num a * q_den b * (ka * q_den a) + q_num b * q_den a * (kb * q_den b)) by ring.
  rewrite <- Ea, <- Eb. ring.
Qed.

Lemma usize_lcm_eq pf a b : 0 < a -> 0 < b -> usize_lcm pf a b = usize_op pf (Z.lcm a b).
Proof.
  intros Ha Hb. unfold usize_lcm, usize_div. destruct (lcm_facts a b Ha Hb) as (El & Hl & _).
  replace (a =? 0) with false by lia. simpl.
  destruct (Z.eqb_spec (Z.gcd a b) 0) as [E|_]; [apply Z.gcd_eq_0_l in E; lia|]. cbn [bind]. now rewrite El.
Qed.

Lemma usize_div_ok a b : 0 < b -> usize_div a b = Ok (a / b).
Proof. intros H. unfold usize_div. destruct (Z.eqb_spec b 0); [lia|reflexivity]. Qed.

Lemma qeq0_num n d : Qeq (Qmake n d) 0 <-> n = 0.
Proof. unfold Qeq. simpl. lia. Qed.

Lemma q_add_exact pf a b : mq_lowest a -> mq_lowest b ->
  let l := Z.lcm (q_den a) (q_den b) in
  l < 2 ^ 63 -> fits (l / q_den a * q_num a) -> fits (l / q_den b * q_num b) ->
  fits (l / q_den a * q_num a + l / q_den b * q_num b) ->
  q_exact_opt (q_add pf a b) (mq_val a + mq_val b)%Q.
Proof.
  intros Ha Hb l Hl Hfa Hfb Hs. unfold fits in *.
  pose proof (lowest_bounds a Ha) as Ba. pose proof (lowest_bounds b Hb) as Bb.
  destruct (lcm_facts (q_den a) (q_den b)) as (El & Hlp & Da & Db); try lia. cbv zeta in *. rewrite El in *. fold l in Hlp, Da, Db.
  unfold q_add. rewrite usize_lcm_eq by lia. fold l. rewrite usize_op_ok by lia. cbn [bind].
  assert (Ra : 0 <= l / q_den a < 2 ^ 63) by (split; [apply Z.div_pos; lia|]; apply Z.div_lt_upper_bound; nia).
  assert (Rb : 0 <= l / q_den b < 2 ^ 63) by (split; [apply Z.div_pos; lia|]; apply Z.div_lt_upper_bound; nia).
  rewrite usize_div_ok by lia. cbn [bind].
  rewrite to_isize_small by lia. rewrite isize_op_ok by lia. cbn [bind].
  rewrite usize_div_ok by lia. cbn [bind].
  rewrite to_isize_small by lia. rewrite isize_op_ok by lia. cbn [bind]. rewrite isize_op_ok by lia. cbn [bind].
  pose proof (add_val a b Ha Hb) as Hv. cbv zeta in Hv. fold l in Hv.
  set (n := l / q_den a * q_num a + l / q_den b * q_num b) in *.
  destruct (Z.eqb_spec n 0) as [E0|E0].
  - left. split; auto. rewrite <- Hv. now apply qeq0_num.
  - right. destruct (q_reduce_spec n l) as (r & E & Hlow & Hrv); try lia.
    + apply in_isize_iff. lia.
    + pose proof (Z.gcd_divide_r n l) as D. apply Z.divide_pos_le in D; lia.
    + rewrite E. cbn [bind]. exists r. split; auto. split; auto. now rewrite Hrv.
Qed.

Lemma q_add_debug a b : mq_lowest a -> mq_lowest b -> Z.lcm (q_den a) (q_den b) < 2 ^ 63 ->
  q_add Debug a b = Panic \/ q_exact_opt (q_add Debug a b) (mq_val a + mq_val b)%Q.
Proof.
  intros Ha Hb Hl. set (l := Z.lcm (q_den a) (q_den b)) in *.
  pose proof (lowest_bounds a Ha) as Ba. pose proof (lowest_bounds b Hb) as Bb.
  destruct (lcm_facts (q_den a) (q_den b)) as (El & Hlp & Da & Db); try lia. cbv zeta in *. rewrite El in *. fold l in Hlp, Da, Db.
  unfold q_add. rewrite usize_lcm_eq by lia. fold l. rewrite usize_op_ok by lia. cbn [bind].
  assert (Ra : 0 <= l / q_den a < 2 ^ 63) by (split; [apply Z.div_pos; lia|]; apply Z.div_lt_upper_bound; nia).
  assert (Rb : 0 <= l / q_den b < 2 ^ 63) by (split; [apply Z.div_pos; lia|]; apply Z.div_lt_upper_bound; nia).
  rewrite usize_div_ok by lia. cbn [bind].
  rewrite to_isize_small by lia.
  destruct (isize_op_debug (l / q_den a * q_num a)) as [[-> H1]| ->]; [|now left]. cbn [bind].
  rewrite usize_div_ok by lia. cbn [bind].
  rewrite to_isize_small by lia.
  destruct (isize_op_debug (l / q_den b * q_num b)) as [[-> H2]| ->]; [|now left]. cbn [bind].
  set (n := l / q_den a * q_num a + l / q_den b * q_num b).
  destruct (isize_op_debug n) as [[-> H3]| ->]; [|now left]. cbn [bind]. right.
  pose proof (add_val a b Ha Hb) as Hv. cbv zeta in Hv. fold l in Hv. fold n in Hv.
  destruct (Z.eqb_spec n 0) as [E0|E0].
  - left. split; auto. rewrite <- Hv. now apply qeq0_num.
  - right. destruct (q_reduce_spec n l) as (r & E & Hlow & Hrv); try lia.
    + apply in_isize_iff. lia.
    + pose proof (Z.gcd_divide_r n l) as D. apply Z.divide_pos_le in D; lia.
    + rewrite E. cbn [bind]. exists r. split; auto. split; auto. now rewrite Hrv.
Qed.

Lemma q_neg_exact pf a : mq_lowest a -> fits (q_num a) -> q_exact (q_neg pf a) (- mq_val a)%Q.
Proof.
  intros Ha Hn. pose proof (lowest_bounds a Ha) as B. unfold fits in Hn. unfold q_neg. rewrite isize_op_ok by lia. cbn [bind].
  eexists. split; [reflexivity|]. destruct Ha as (H1 & H2 & H3 & H4 & H5). split.
  - unfold mq_lowest. cbn [q_num q_den]. rewrite Z.gcd_opp_l, in_isize_iff.
    split; [lia|]. split; [lia|]. split; [lia|]. split; [lia|exact H5].
  - reflexivity.
Qed.
Lemma q_neg_debug a : mq_lowest a -> q_neg Debug a = Panic \/ q_exact (q_neg Debug a) (- mq_val a)%Q.
Proof.
  intros Ha. destruct (Z.eq_dec (q_num a) (- 2 ^ 63)) as [E|E].
  - left. unfold q_neg. rewrite E. reflexivity.
  - right. apply q_neg_exact; auto. pose proof (lowest_bounds a Ha). unfold fits. lia.
Qed.

Lemma q_inv_exact pf a : mq_lowest a -> q_den a < 2 ^ 63 -> q_exact (q_inv pf a) (/ mq_val a)%Q.
Proof.
  intros Ha Hd. pose proof (lowest_bounds a Ha) as B. unfold q_inv.
  rewrite to_isize_small by lia.
  assert (Hs : Z.sgn (q_num a) = 1 \/ Z.sgn (q_num a) = -1) by (destruct (q_num a); simpl; try lia; tauto).
  rewrite isize_op_ok by (destruct Hs as [-> | ->]; lia). cbn [bind].
  eexists. split; [reflexivity|]. destruct Ha as (H1 & H2 & H3 & H4 & H5). split.
  - unfold mq_lowest; cbn [q_num q_den]. split; [|split; [|split; [|split]]].
    + destruct Hs as [-> | ->]; lia.
    + lia.
    + rewrite Z.gcd_comm, Z.gcd_abs_l. destruct Hs as [-> | ->].
      * now rewrite Z.mul_1_l.
      * replace (-1 * q_den a) with (- q_den a) by lia. now rewrite Z.gcd_opp_r.
    + apply in_isize_iff. destruct Hs as [-> | ->]; lia.
    + apply in_usize_iff. lia.
  - unfold mq_val, Qinv, Qeq. cbn [q_num q_den Qnum Qden].
    destruct a as [n d]; cbn [q_num q_den] in *. destruct n as [|n|n]; [lia| |]; simpl Z.sgn; simpl Z.abs; cbn [Qnum Qden].
    + rewrite !Z2Pos.id by lia. lia.
    + change (Z.neg (Z.to_pos d)) with (- Z.pos (Z.to_pos d)). rewrite !Z2Pos.id by lia. lia.
Qed.
