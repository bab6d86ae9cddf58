(** C109: what the arithmetic of [Q] computes in a release build, where it never checks for overflow. *)
From Coq Require Import ZArith Znumtheory Zpow_facts Lia.
From Verif Require Import Base Fields FieldsFacts FieldsQ.
Set Implicit Arguments.
Local Open Scope Z_scope.

(** ** Specification *)
(** [y] is the signed, the unsigned 64-bit word congruent to [x] *)
Definition wraps_signed (x y : Z) : Prop := - 2 ^ 63 <= y < 2 ^ 63 /\ exists k, x = y + k * 2 ^ 64.
Definition wraps_unsigned (x y : Z) : Prop := 0 <= y < 2 ^ 64 /\ exists k, x = y + k * 2 ^ 64.
(** a value of the type [Q], in lowest terms or not *)
Definition is_word_pair (a : mq) : Prop := - 2 ^ 63 <= q_num a < 2 ^ 63 /\ 0 <= q_den a < 2 ^ 64.
(** [r] is [n / d] with both divided by their greatest common divisor [g]; the divisor of [n] being read as a signed word, [r] has the wrong
    sign if [g] is 2^63, and is 0 / 1 if [g] is more *)
Definition cancelled (n d : Z) (r : mq) : Prop :=
  let g := Z.gcd n d in
  0 < g /\
  (g < 2 ^ 63 -> n = g * q_num r /\ d = g * q_den r) /\
  (g = 2 ^ 63 -> n = - (g * q_num r) /\ d = g * q_den r) /\
  (2 ^ 63 < g -> n = 0 /\ q_num r = 0 /\ q_den r = 1).

(** ** Words *)
Lemma to_isize_wraps x : wraps_signed x (to_isize x).
Proof.
  unfold wraps_signed, to_isize. pose proof (Z.mod_pos_bound (x + 2 ^ 63) (2 ^ 64) ltac:(lia)). split; [lia|].
  exists ((x + 2 ^ 63) / 2 ^ 64). pose proof (Z.div_mod (x + 2 ^ 63) (2 ^ 64) ltac:(lia)). lia.
Qed.
Lemma isize_release x : exists y, isize_op Release x = Ok y /\ wraps_signed x y.
Proof.
  unfold isize_op. destruct (in_isize x) eqn:E; [|exists (to_isize x); split; [reflexivity|apply to_isize_wraps]].
  exists x. split; auto. apply in_isize_iff in E. split; auto. exists 0. lia.
Qed.
Lemma usize_release x : exists y, usize_op Release x = Ok y /\ wraps_unsigned x y.
Proof.
  unfold usize_op. destruct (in_usize x) eqn:E.
  - exists x. split; auto. apply in_usize_iff in E. split; auto. exists 0. lia.
  - exists (to_usize x). split; auto. unfold to_usize. split; [apply Z.mod_pos_bound; lia|]. exists (x / 2 ^ 64). pose proof (Z.div_mod x (2 ^ 64) ltac:(lia)). lia.
Qed.
Lemma wraps_signed_unique x y y' : wraps_signed x y -> wraps_signed x y' -> y = y'.
Proof. intros (H & k & E) (H' & k' & E'). assert (k = k') by lia. subst. lia. Qed.
Lemma wraps_unsigned_unique x y y' : wraps_unsigned x y -> wraps_unsigned x y' -> y = y'.
Proof. intros (H & k & E) (H' & k' & E'). assert (k = k') by lia. subst. lia. Qed.

Lemma reduce_release n d : - 2 ^ 63 <= n < 2 ^ 63 -> 0 <= d < 2 ^ 64 ->
  if (n =? 0) && (d =? 0) then q_reduce (MQ n d) = Panic else exists r, q_reduce (MQ n d) = Ok r /\ cancelled n d r.
Proof.
  intros Hn Hd. unfold q_reduce. cbn [q_num q_den]. rewrite Z.gcd_abs_l. set (g := Z.gcd n d).
  assert (Hg0 : 0 <= g) by apply Z.gcd_nonneg. destruct (Z.gcd_divide_l n d) as (n' & En). destruct (Z.gcd_divide_r n d) as (d' & Ed). fold g in En, Ed.
  destruct (Z.eqb_spec n 0) as [En0|En0]; destruct (Z.eqb_spec d 0) as [Ed0|Ed0]; cbn [andb].
  { assert (g = 0) by (unfold g; rewrite En0, Ed0; reflexivity). unfold isize_div. now replace g with 0 by auto. }
  all: assert (Hg : 0 < g) by (destruct (Z.eq_dec g 0) as [E|]; [apply Z.gcd_eq_0 in E; lia|lia]).
  all: assert (Hgd : 0 < d -> g <= d) by (intros H0; apply Z.divide_pos_le; auto; apply Z.gcd_divide_r).
  all: assert (Hgn : n <> 0 -> g <= Z.abs n) by (intros H0; apply Z.divide_pos_le; [lia|]; apply Z.divide_abs_r; apply Z.gcd_divide_l).
  all: assert (Hd' : d / g = d') by (rewrite Ed; apply Z.div_mul; lia).
  all: assert (Hud : usize_div d g = Ok d') by (rewrite usize_div_ok by auto; now rewrite Hd').
  all: destruct (Z_lt_le_dec g (2 ^ 63)) as [Hs|Hb].
  1, 3, 5: assert (Hq : Z.quot n g = n') by (rewrite quot_exact by (try lia; apply Z.gcd_divide_l); rewrite En; apply Z.div_mul; lia).
  1, 2, 3: exists (MQ n' d'); unfold isize_div; rewrite to_isize_small by lia; destruct (Z.eqb_spec g 0); [lia|]; rewrite Hq;
    assert (Hin : in_isize n' = true) by (apply in_isize_iff; nia); rewrite Hin; cbn [bind]; rewrite Hud; split; [reflexivity|];
    unfold cancelled; fold g; cbn [q_num q_den]; split; [exact Hg|]; split; [intros _; split; lia|]; split; intros; lia.
  all: assert (Ht : to_isize g = g - 2 ^ 64) by (apply to_isize_big; split; [exact Hb|]; destruct (Z.eq_dec n 0); [specialize (Hgd ltac:(lia)); lia|specialize (Hgn ltac:(auto)); lia]).
  all: unfold isize_div; rewrite Ht; destruct (Z.eqb_spec (g - 2 ^ 64) 0) as [Ex|Ex]; [exfalso; destruct (Z.eq_dec n 0); [specialize (Hgd ltac:(lia)); lia|specialize (Hgn ltac:(auto)); lia]|].
  - replace (Z.quot n (g - 2 ^ 64)) with 0 by (rewrite En0; now rewrite Z.quot_0_l). exists (MQ 0 d'). change (in_isize 0) with true. cbn [bind]. rewrite Hud. split; [reflexivity|].
    unfold cancelled. fold g. cbn [q_num q_den]. split; auto. split; [intros; lia|]. split; [intros; split; lia|]. intros _. split; auto. split; auto.
    assert (Egd : g = d) by (unfold g; rewrite En0, Z.gcd_0_l; lia). rewrite <- Hd', Egd. apply Z.div_same. lia.
  - assert (Eg : g = 2 ^ 63) by (specialize (Hgn ltac:(auto)); lia). assert (Hnm : n = - 2 ^ 63) by (specialize (Hgn ltac:(auto)); lia). replace (Z.quot n (g - 2 ^ 64)) with 1 by (rewrite Hnm, Eg; reflexivity). change (in_isize 1) with true.
    exists (MQ 1 d'). cbn [bind]. rewrite Hud. split; [reflexivity|]. unfold cancelled. fold g. cbn [q_num q_den]. split; auto. split; [intros; lia|]. split; [intros; split; lia|]. intros; lia.
  - assert (Eg : g = 2 ^ 63) by (specialize (Hgn ltac:(auto)); lia). assert (Hnm : n = - 2 ^ 63) by (specialize (Hgn ltac:(auto)); lia). replace (Z.quot n (g - 2 ^ 64)) with 1 by (rewrite Hnm, Eg; reflexivity). change (in_isize 1) with true.
    exists (MQ 1 d'). cbn [bind]. rewrite Hud. split; [reflexivity|]. unfold cancelled. fold g. cbn [q_num q_den]. split; auto. split; [intros; lia|]. split; [intros; split; lia|]. intros; lia.
Qed.

(** ** C109 *)
Theorem C109_release_product : forall a b, is_word_pair a -> is_word_pair b ->
  exists n d, wraps_signed (q_num a * q_num b) n /\ wraps_unsigned (q_den a * q_den b) d /\
    ((n = 0 /\ d = 0 /\ q_mul Release a b = Panic) \/ exists r, q_mul Release a b = Ok r /\ cancelled n d r).
Proof.
  intros a b _ _. destruct (isize_release (q_num a * q_num b)) as (n & En & Hn). destruct (usize_release (q_den a * q_den b)) as (d & Ed & Hd).
  exists n, d. split; auto. split; auto. unfold q_mul. rewrite En. cbn [bind]. rewrite Ed. cbn [bind]. pose proof (@reduce_release n d (proj1 Hn) (proj1 Hd)) as H.
  destruct (Z.eqb_spec n 0) as [->|]; destruct (Z.eqb_spec d 0) as [->|]; cbn [andb] in H; auto.
Qed.
Lemma no_double_zero a b : mq_lowest a -> mq_lowest b -> ((2 ^ 64 | q_num a * q_num b) /\ (2 ^ 64 | q_den a * q_den b)) -> False.
Proof.
  intros Ha Hb [D1 D2]. apply lowest_bounds in Ha, Hb. destruct Ha as (A1 & A2 & A3 & A4), Hb as (B1 & B2 & B3 & B4).
  assert (Hco : forall x, Z.odd x = true -> Z.gcd (2 ^ 64) x = 1).
  { intros x Hx. apply Zgcd_1_rel_prime. apply rel_prime_sym, rel_prime_Zpower_r; [lia|]. apply rel_prime_sym. apply prime_rel_prime; [apply prime_2|]. intros (k & Hk). rewrite Hk, Z.odd_mul in Hx. destruct (Z.odd k); discriminate. }
  destruct (Z.odd (q_num a)) eqn:Eo.
  - assert (H : (2 ^ 64 | q_num b)) by (eapply Z.gauss; [exact D1|now apply Hco]). apply Z.divide_abs_r in H. apply Z.divide_pos_le in H; lia.
  - assert (Od : Z.odd (q_den a) = true).
    { destruct (Z.odd (q_den a)) eqn:Ed; auto. exfalso. rewrite <- Z.negb_even in Eo, Ed. apply Bool.negb_false_iff in Eo, Ed. apply Z.even_spec in Eo, Ed. destruct Eo as (x & Ex), Ed as (y & Ey).
      assert (H : (2 | Z.gcd (q_num a) (q_den a))) by (apply Z.gcd_greatest; [exists x|exists y]; lia). rewrite A4 in H. apply Z.divide_1_r_nonneg in H; lia. }
    assert (H : (2 ^ 64 | q_den b)) by (eapply Z.gauss; [exact D2|now apply Hco]). apply Z.divide_pos_le in H; lia.
Qed.
(** Of two fractions in lowest terms the product never panics; but it is stored as a zero, or with denominator zero, if the exact products are
    multiples of 2^64. *)
Theorem C109_release_product_lowest : forall a b, mq_lowest a -> mq_lowest b ->
  exists r, q_mul Release a b = Ok r /\ (q_num r = 0 <-> (2 ^ 64 | q_num a * q_num b)) /\ (q_den r = 0 <-> (2 ^ 64 | q_den a * q_den b)).
Proof.
  intros a b Ha Hb. pose proof (lowest_bounds _ Ha) as (A1 & A2 & A3 & _). pose proof (lowest_bounds _ Hb) as (B1 & B2 & B3 & _).
  destruct (@C109_release_product a b) as (n & d & (Hn & kn & En) & (Hd & kd & Ed) & H); [split; lia|split; lia|].
  assert (Zn : n = 0 <-> (2 ^ 64 | q_num a * q_num b)).
  { split; [intros ->; exists kn; lia|]. intros (k & Ek). rewrite Ek in En. assert (k = kn) by lia. subst. lia. }
  assert (Zd : d = 0 <-> (2 ^ 64 | q_den a * q_den b)).
  { split; [intros ->; exists kd; lia|]. intros (k & Ek). rewrite Ek in Ed. assert (k = kd) by lia. subst. lia. }
  destruct H as [(-> & -> & _)|(r & E & Hg & H1 & H2 & H3)]; [exfalso; apply (@no_double_zero a b Ha Hb); split; [now apply Zn|now apply Zd]|].
  exists r. split; auto. rewrite <- Zn, <- Zd. set (g := Z.gcd n d) in *. destruct (Z_lt_le_dec g (2 ^ 63)) as [Hs|Hb'].
  - destruct (H1 Hs) as [X1 X2]. clearbody g. split; split; intros; nia.
  - destruct (Z.eq_dec g (2 ^ 63)) as [Eg|Ng]; [destruct (H2 Eg) as [X1 X2]; clearbody g; split; split; intros; nia|]. destruct (H3 ltac:(lia)) as (X1 & X2 & X3). split; [tauto|]. split; [lia|]. intros X4. unfold g in Hg. rewrite X1, X4 in Hg. cbn in Hg. lia.
Qed.

Lemma wraps_signed_add x y u v w : wraps_signed x u -> wraps_signed y v -> wraps_signed (u + v) w -> wraps_signed (x + y) w.
Proof. intros (_ & k & E) (_ & k' & E') (H & k'' & E''). split; auto. exists (k + k' + k''). lia. Qed.
Lemma wraps_signed_mul x y u w : wraps_signed x u -> wraps_signed (u * y) w -> wraps_signed (x * y) w.
Proof. intros (_ & k & E) (H & k' & E'). split; auto. exists (k * y + k'). lia. Qed.
(** The sum wraps the least common multiple [l] of the denominators, divides [l] by them rounding down, and wraps the sum of the products. It never panics. *)
Theorem C109_release_sum : forall a b, is_word_pair a -> is_word_pair b -> q_den a <> 0 -> q_den b <> 0 ->
  exists l n, wraps_unsigned (Z.lcm (q_den a) (q_den b)) l /\ wraps_signed (l / q_den a * q_num a + l / q_den b * q_num b) n /\
    ((n = 0 /\ q_add Release a b = Ok None) \/ (n <> 0 /\ exists r, q_add Release a b = Ok (Some r) /\ cancelled n l r)).
Proof.
  intros a b [_ Ha] [_ Hb] Da Db. destruct (usize_release (Z.lcm (q_den a) (q_den b))) as (l & El & Hl).
  destruct (isize_release (to_isize (l / q_den a) * q_num a)) as (ta & Eta & Hta). destruct (isize_release (to_isize (l / q_den b) * q_num b)) as (tb & Etb & Htb).
  destruct (isize_release (ta + tb)) as (n & En & Hn). exists l, n. split; auto. split.
  { eapply wraps_signed_add; [| |exact Hn]; (eapply wraps_signed_mul; [apply to_isize_wraps|]; eassumption). }
  unfold q_add. rewrite usize_lcm_eq by lia. rewrite El. cbn [bind]. rewrite !usize_div_ok by lia. cbn [bind]. rewrite Eta. cbn [bind]. rewrite Etb. cbn [bind]. rewrite En. cbn [bind].
  pose proof (@reduce_release n l (proj1 Hn) (proj1 Hl)) as H. destruct (Z.eqb_spec n 0) as [->|Hn0]; [auto|]. cbn [andb] in H. destruct H as (r & E & Hc). right. split; auto. exists r. rewrite E. auto.
Qed.
Theorem C109_release_inverses : forall a, is_word_pair a ->
  (exists n, wraps_signed (- q_num a) n /\ q_neg Release a = Ok (MQ n (q_den a))) /\
  (exists n, wraps_signed (Z.sgn (q_num a) * q_den a) n /\ q_inv Release a = Ok (MQ n (Z.abs (q_num a)))).
Proof.
  intros a _. split.
  - destruct (isize_release (- q_num a)) as (n & En & Hn). exists n. split; auto. unfold q_neg. now rewrite En.
  - destruct (isize_release (Z.sgn (q_num a) * to_isize (q_den a))) as (n & En & Hn). exists n. split; [|unfold q_inv; now rewrite En].
    rewrite Z.mul_comm in Hn |- *. eapply wraps_signed_mul; [apply to_isize_wraps|exact Hn].
Qed.
(** Where a debug build does not panic, a release build computes the same. *)
Lemma isize_agree x y : isize_op Debug x = Ok y -> isize_op Release x = Ok y.
Proof. unfold isize_op. destruct (in_isize x); [auto|discriminate]. Qed.
Lemma usize_agree x y : usize_op Debug x = Ok y -> usize_op Release x = Ok y.
Proof. unfold usize_op. destruct (in_usize x); [auto|discriminate]. Qed.
Theorem C109_debug_release : forall (a b r : mq),
  ((q_mul Debug a b = Ok r -> q_mul Release a b = Ok r) /\ (forall o, q_add Debug a b = Ok o -> q_add Release a b = Ok o) /\ (q_neg Debug a = Ok r -> q_neg Release a = Ok r) /\ (q_inv Debug a = Ok r -> q_inv Release a = Ok r))%type.
Proof.
  assert (HI : forall x (k : (Z -> res mq)%type) (r : mq), bind (isize_op Debug x) k = Ok r -> exists y, isize_op Debug x = Ok y /\ k y = Ok r).
  { intros x k r H. destruct (isize_op Debug x) as [y| |] eqn:E; try discriminate. eauto. }
  intros a b r. split; [|split; [|split]].
  - unfold q_mul. intros H. apply HI in H. destruct H as (n & En & H). rewrite (isize_agree _ En). cbn [bind]. destruct (usize_op Debug (q_den a * q_den b)) as [d| |] eqn:Ed; try discriminate. rewrite (usize_agree _ Ed). exact H.
  - intros o. unfold q_add, usize_lcm. destruct ((q_den a =? 0) && (q_den b =? 0)).
    + cbn [bind]. destruct (usize_div 0 (q_den a)) as [fa| |]; try discriminate. cbn [bind]. destruct (isize_op Debug (to_isize fa * q_num a)) as [ta| |] eqn:Ea; try discriminate. rewrite (isize_agree _ Ea). cbn [bind].
      destruct (usize_div 0 (q_den b)) as [fb| |]; try discriminate. cbn [bind]. destruct (isize_op Debug (to_isize fb * q_num b)) as [tb| |] eqn:Eb; try discriminate. rewrite (isize_agree _ Eb). cbn [bind].
      destruct (isize_op Debug (ta + tb)) as [n| |] eqn:En; try discriminate. rewrite (isize_agree _ En). auto.
    + destruct (usize_div (q_den b) (Z.gcd (q_den a) (q_den b))) as [q| |]; try discriminate. cbn [bind]. destruct (usize_op Debug (q_den a * q)) as [l| |] eqn:El; try discriminate. rewrite (usize_agree _ El). cbn [bind].
      destruct (usize_div l (q_den a)) as [fa| |]; try discriminate. cbn [bind]. destruct (isize_op Debug (to_isize fa * q_num a)) as [ta| |] eqn:Ea; try discriminate. rewrite (isize_agree _ Ea). cbn [bind].
      destruct (usize_div l (q_den b)) as [fb| |]; try discriminate. cbn [bind]. destruct (isize_op Debug (to_isize fb * q_num b)) as [tb| |] eqn:Eb; try discriminate. rewrite (isize_agree _ Eb). cbn [bind].
      destruct (isize_op Debug (ta + tb)) as [n| |] eqn:En; try discriminate. rewrite (isize_agree _ En). auto.
  - unfold q_neg. intros H. apply HI in H. destruct H as (n & En & H). now rewrite (isize_agree _ En).
  - unfold q_inv. intros H. apply HI in H. destruct H as (n & En & H). now rewrite (isize_agree _ En).
Qed.
Print Assumptions C109_debug_release.
(** A value with denominator 0 cannot be added to anything, in any build. *)
Theorem C109_zero_denominator : forall pf a b, is_word_pair a -> is_word_pair b -> q_den a = 0 \/ q_den b = 0 -> q_add pf a b = Panic.
Proof.
  intros pf a b [_ Ha] [_ Hb] H. assert (Hz : usize_op pf 0 = Ok 0) by reflexivity. unfold q_add, usize_lcm. destruct (Z.eqb_spec (q_den a) 0) as [Ea|Ea].
  - rewrite Ea. destruct (Z.eqb_spec (q_den b) 0) as [Eb|Eb]; cbn [andb]; [reflexivity|]. rewrite Z.gcd_0_l, Z.abs_eq by lia. rewrite usize_div_ok by lia. cbn [bind]. rewrite Z.mul_0_l, Hz. reflexivity.
  - destruct H as [H|Eb]; [contradiction|]. rewrite Eb. cbn [andb]. rewrite Z.gcd_0_r, Z.abs_eq by lia. rewrite usize_div_ok by lia. cbn [bind]. rewrite Z.div_0_l, Z.mul_0_r by lia. rewrite Hz. cbn [bind].
    rewrite usize_div_ok by lia. cbn [bind]. rewrite Z.div_0_l by lia. change (to_isize 0) with 0. rewrite Z.mul_0_l. rewrite isize_op_ok by lia. reflexivity.
Qed.
Print Assumptions C109_zero_denominator.
Print Assumptions C109_release_product.
Print Assumptions C109_release_product_lowest.
Print Assumptions C109_release_sum.
Print Assumptions C109_release_inverses.

(** 2^32 squared is stored as 0, 1 / 2^32 squared as 1 / 0; the sum of 1/2^40 and 1/3^20 wraps its denominator; adding anything to 1 / 0 panics. *)
Example C109_ex :
  mq_lowest (MQ (2 ^ 32) 1) /\ mq_lowest (MQ 1 (2 ^ 32)) /\
  q_mul Release (MQ (2 ^ 32) 1) (MQ (2 ^ 32) 1) = Ok (MQ 0 1) /\ q_mul Debug (MQ (2 ^ 32) 1) (MQ (2 ^ 32) 1) = Panic /\
  q_mul Release (MQ 1 (2 ^ 32)) (MQ 1 (2 ^ 32)) = Ok (MQ 1 0) /\
  q_add Release (MQ 1 0) (MQ 1 1) = Panic /\
  q_add Release (MQ 1 (2 ^ 40)) (MQ 1 (3 ^ 20)) = Ok (Some (MQ 4397300243 15283969189597937664)) /\ 2 ^ 40 * 3 ^ 20 = 15283969189597937664 + 207 * 2 ^ 64 /\
  q_neg Release (MQ (- 2 ^ 63) 1) = Ok (MQ (- 2 ^ 63) 1) /\
  q_inv Release (MQ 1 (2 ^ 63)) = Ok (MQ (- 2 ^ 63) 1).
Proof.
  repeat split; try (vm_compute; reflexivity); try lia; try (vm_compute; discriminate).
Qed.
