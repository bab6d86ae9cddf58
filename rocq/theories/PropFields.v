(** Properties of the coefficient types (C01-C05). *)
From Verif Require Import Base Fields FieldsFacts FieldsQ.
From Coq Require Import QArith Znumtheory.
Local Open Scope Z_scope.

(* ------------------------------------------------------------------ *)
(** ** C01 *)

(** the residue a (possibly absent) coefficient stands for *)
Definition z2_res (x : option z2) : Z := match x with None => 0 | Some _ => 1 end.

Theorem C01_Z2 :
  is_field z2 z2_add z2_mul z2_one z2_neg z2_inv /\
  (forall x y, z2_res x = z2_res y -> x = y) /\
  (forall n, 0 <= n < 2 -> exists x, z2_res x = n) /\
  (forall x y, z2_res (lift_add z2_add x y) = (z2_res x + z2_res y) mod 2) /\
  (forall x y, z2_res (lift_mul z2_mul x y) = (z2_res x * z2_res y) mod 2) /\
  z2_add Z2 Z2 = None /\ add_opt z2_add Z2 None = Some Z2 /\
  (forall x y, z2_eqb x y = true <-> x = y).
Proof.
  split; [exact z2_field|]. split; [intros [[]|] [[]|]; simpl; auto; discriminate|]. split.
  { intros n Hn. assert (n = 0 \/ n = 1) as [-> | ->] by lia; [exists None|exists (Some Z2)]; reflexivity. }
  split; [intros [[]|] [[]|]; reflexivity|]. split; [intros [[]|] [[]|]; reflexivity|].
  split; [reflexivity|]. split; [reflexivity|]. apply z2_eqb_eq.
Qed.

(* ------------------------------------------------------------------ *)
(** ** C02 *)

(** Values of [ZP<P>] a user can produce: the representation is private. *)
Inductive zp_reach (P : Z) : Z -> Prop :=
| zpr_one : zp_reach P zp_one
| zpr_add a b c : zp_reach P a -> zp_reach P b -> zp_add P a b = Ok (Some c) -> zp_reach P c
| zpr_mul a b c : zp_reach P a -> zp_reach P b -> zp_mul P a b = Ok c -> zp_reach P c
| zpr_neg a c : zp_reach P a -> zp_neg P a = Ok c -> zp_reach P c
| zpr_inv a c : zp_reach P a -> zp_inv P a = Ok c -> zp_reach P c.

Theorem C02_ZP_operations p a b : In p [3; 5; 7; 11; 13] -> 1 <= a < p -> 1 <= b < p ->
  zp_add p a b = Ok (if (a + b) mod p =? 0 then None else Some ((a + b) mod p)) /\
  zp_mul p a b = Ok ((a * b) mod p) /\ 1 <= (a * b) mod p < p /\
  zp_neg p a = Ok (p - a) /\ 1 <= p - a < p /\
  exists c, zp_inv p a = Ok c /\ 1 <= c < p /\ (a * c) mod p = 1.
Proof.
  intros Hp Ha Hb. change (zp_prime p) in Hp. change (zp_ok p a) in Ha. change (zp_ok p b) in Hb.
  pose proof (zp_prime_bound p Hp).
  split; [now apply zp_add_spec|]. split; [now apply zp_mul_spec|]. split.
  { pose proof (Z.mod_pos_bound (a * b) p). pose proof (zp_mul_nonzero p a b Hp Ha Hb). lia. }
  split; [now apply zp_neg_spec|]. unfold zp_ok in *. split; [lia|].
  destruct (zp_inv_spec p a Hp Ha) as (c & H1 & H2 & H3). exists c. unfold zp_ok in H2. rewrite Z.mul_comm. auto.
Qed.

(** every value a user can produce is one of 1..p-1, so no operation ever panics *)
Theorem C02_ZP_closed p a : In p [3; 5; 7; 11; 13] -> (zp_reach p a <-> 1 <= a < p).
Proof.
  intros Hp. assert (Hb := zp_prime_bound p Hp). split.
  - intros H. induction H as [|a b c Ha IHa Hb' IHb E|a b c Ha IHa Hb' IHb E|a c Ha IHa E|a c Ha IHa E].
    + unfold zp_one. lia.
    + destruct (C02_ZP_operations p a b Hp IHa IHb) as (E1 & _). rewrite E1 in E.
      destruct (Z.eqb_spec ((a + b) mod p) 0); [discriminate|injection E as <-].
      pose proof (Z.mod_pos_bound (a + b) p). lia.
    + destruct (C02_ZP_operations p a b Hp IHa IHb) as (_ & E1 & E2 & _). rewrite E1 in E. injection E as <-. lia.
    + destruct (C02_ZP_operations p a a Hp IHa IHa) as (_ & _ & _ & E1 & E2 & _). rewrite E1 in E. injection E as <-. lia.
    + destruct (C02_ZP_operations p a a Hp IHa IHa) as (_ & _ & _ & _ & _ & x & E1 & E2 & _). rewrite E1 in E. injection E as <-. lia.
  - intros Ha.
    assert (G : forall n : nat, 1 + Z.of_nat n < p -> zp_reach p (1 + Z.of_nat n)).
    { induction n as [|n IH]; intros Hn; [apply zpr_one|].
      eapply zpr_add; [apply IH; lia|apply zpr_one|].
      destruct (C02_ZP_operations p (1 + Z.of_nat n) zp_one Hp) as (-> & _); unfold zp_one; try lia.
      rewrite Z.mod_small by lia. destruct (Z.eqb_spec (1 + Z.of_nat n + 1) 0); [lia|]. do 2 f_equal. lia. }
    replace a with (1 + Z.of_nat (Z.to_nat (a - 1))) by lia. apply G. lia.
Qed.

(** with the absent coefficient as zero these operations form a field: the total
    operations of the record [ZP_coeff] are the machine operations *)
Theorem C02_ZP_field p (Hp : In p [3; 5; 7; 11; 13]) :
  is_field (zp p) (zpt_add p Hp) (zpt_mul p Hp) (zpt_one p Hp) (zpt_neg p Hp) (zpt_inv p Hp) /\
  (forall a, 1 <= a < p -> exists x : zp p, zval x = a) /\
  (forall x : zp p, 1 <= zval x < p) /\ (forall x y : zp p, zval x = zval y -> x = y) /\
  zval (zpt_one p Hp) = zp_one /\
  forall x y : zp p,
    zp_add p (zval x) (zval y) = Ok (option_map zval (zpt_add p Hp x y)) /\
    zp_mul p (zval x) (zval y) = Ok (zval (zpt_mul p Hp x y)) /\
    zp_neg p (zval x) = Ok (zval (zpt_neg p Hp x)) /\
    zp_inv p (zval x) = Ok (zval (zpt_inv p Hp x)).
Proof.
  split; [apply zp_field|]. split; [|split; [apply zval_ok|split; [apply zp_eq|split]]].
  - intros a Ha. exists (zp_mk p Hp a). now apply zval_mk.
  - apply zval_mk. pose proof (zp_prime_bound p Hp). unfold zp_ok, zp_one. lia.
  - apply zpt_faithful.
Qed.
Example C02_ex : zp_add 13 12 12 = Ok (Some 11) /\ zp_mul 13 12 12 = Ok 1 /\ zp_inv 11 7 = Ok 8 /\ zp_add 7 3 4 = Ok None.
Proof. vm_compute. auto. Qed.

(* ------------------------------------------------------------------ *)
(** ** C03 *)

Theorem C03_panics_iff P a b : 1 <= P <= 255 -> 1 <= a <= 255 -> 1 <= b <= 255 ->
  (zp_mul P a b = Panic <-> a * b > 255 \/ (P | a * b)).
Proof.
  intros HP Ha Hb. rewrite zp_mul_panics_iff by lia. split; intros [H|H]; auto; right.
  - apply Z.mod_divide; [lia|exact H].
  - apply Z.mod_divide; [lia|exact H].
Qed.

Lemma zp_reach_all P a : 1 <= P <= 255 -> 1 <= a < P -> zp_reach P a.
Proof.
  intros HP Ha.
  assert (G : forall n : nat, 1 + Z.of_nat n < P -> zp_reach P (1 + Z.of_nat n)).
  { induction n as [|n IH]; intros Hn; [apply zpr_one|].
    eapply zpr_add; [apply IH; lia|apply zpr_one|]. unfold zp_add, zp_one, u8_max.
    destruct (Z.leb_spec (1 + Z.of_nat n + 1) 255); [|lia]. cbn [bind].
    destruct (Z.eqb_spec P 0); [lia|]. cbn [bind]. rewrite Z.mod_small by lia.
    destruct (Z.eqb_spec (1 + Z.of_nat n + 1) 0); [lia|]. do 2 f_equal. lia. }
  replace a with (1 + Z.of_nat (Z.to_nat (a - 1))) by lia. apply G. lia.
Qed.

(** for every other modulus some reachable product panics *)
Theorem C03_unsuitable P : 4 <= P <= 255 -> ~ In P [5; 7; 11; 13] ->
  exists a b, zp_reach P a /\ zp_reach P b /\ 1 <= a < P /\ 1 <= b < P /\ zp_mul P a b = Panic.
Proof.
  intros HP Hn. destruct (Z_lt_le_dec P 17) as [Hs|Hb].
  - assert (G : exists a b, 1 < a /\ 1 < b /\ P = a * b).
    { assert (P = 4 \/ P = 6 \/ P = 8 \/ P = 9 \/ P = 10 \/ P = 12 \/ P = 14 \/ P = 15 \/ P = 16) as HP'.
      { simpl in Hn. lia. }
      destruct HP' as [->|[->|[->|[->|[->|[->|[->|[->| ->]]]]]]]];
        [exists 2, 2|exists 2, 3|exists 2, 4|exists 3, 3|exists 2, 5|exists 2, 6|exists 2, 7|exists 3, 5|exists 2, 8]; lia. }
    destruct G as (a & b & Ha & Hb & E).
    destruct (zp_mul_panics_composite P a b) as (H1 & H2 & H3); try lia. unfold zp_ok in *.
    exists a, b. repeat (split; [solve [apply zp_reach_all; lia|lia]|]). auto.
  - exists (P - 1), (P - 1). repeat (split; [solve [apply zp_reach_all; lia|lia]|]). apply zp_mul_panics_big. lia.
Qed.
(** for the suitable ones none does *)
Theorem C03_suitable P a b : In P [3; 5; 7; 11; 13] -> zp_reach P a -> zp_reach P b ->
  zp_mul P a b <> Panic /\ zp_add P a b <> Panic /\ zp_neg P a <> Panic /\ zp_inv P a <> Panic.
Proof.
  intros HP Ha Hb. rewrite C02_ZP_closed in Ha, Hb by auto.
  destruct (C02_ZP_operations P a b HP Ha Hb) as (-> & -> & _ & -> & _ & c & -> & _).
  destruct (_ =? 0); repeat split; discriminate.
Qed.
Example C03_ex : zp_mul 15 3 5 = Panic /\ zp_mul 17 16 16 = Panic /\ zp_mul 13 12 12 = Ok 1.
Proof. vm_compute. auto. Qed.

(* ------------------------------------------------------------------ *)
(** ** C04: exactness of [Q] when nothing overflows (in either build profile) *)

(** [mq_lowest a]: numerator non-zero and an [isize], denominator positive and a [usize], lowest terms;
    [mq_val a]: the rational number; [q_exact r v]: [r] returns a lowest-terms value equal to [v]. *)
Theorem C04_Q_exact pf a b : mq_lowest a -> mq_lowest b ->
  (fits (q_num a * q_num b) -> q_den a * q_den b < 2 ^ 63 ->
     q_exact (q_mul pf a b) (mq_val a * mq_val b)%Q) /\
  (let l := Z.lcm (q_den a) (q_den b) in
   l < 2 ^ 63 -> fits (l / q_den a * q_num a) -> fits (l / q_den b * q_num b) ->
   fits (l / q_den a * q_num a + l / q_den b * q_num b) ->
     q_exact_opt (q_add pf a b) (mq_val a + mq_val b)%Q) /\
  (fits (q_num a) -> q_exact (q_neg pf a) (- mq_val a)%Q) /\
  (q_den a < 2 ^ 63 -> q_exact (q_inv pf a) (/ mq_val a)%Q).
Proof.
  intros Ha Hb. split; [now apply q_mul_exact|]. split; [now apply q_add_exact|]. split; [now apply q_neg_exact|now apply q_inv_exact].
Qed.
(** a crude sufficient bound: 31-bit operands never overflow *)
Theorem C04_Q_small pf a b : mq_lowest a -> mq_lowest b ->
  Z.abs (q_num a) < 2 ^ 31 -> Z.abs (q_num b) < 2 ^ 31 -> q_den a < 2 ^ 31 -> q_den b < 2 ^ 31 ->
  q_exact (q_mul pf a b) (mq_val a * mq_val b)%Q /\ q_exact_opt (q_add pf a b) (mq_val a + mq_val b)%Q /\
  q_exact (q_neg pf a) (- mq_val a)%Q /\ q_exact (q_inv pf a) (/ mq_val a)%Q.
Proof.
  intros Ha Hb Hna Hnb Hda Hdb. destruct (C04_Q_exact pf a b Ha Hb) as (H1 & H2 & H3 & H4).
  pose proof (lowest_bounds a Ha) as Ba. pose proof (lowest_bounds b Hb) as Bb.
  destruct (lcm_facts (q_den a) (q_den b)) as (El & Hlp & Da & Db); try lia. cbv zeta in *. rewrite El in *.
  set (l := Z.lcm (q_den a) (q_den b)) in *.
  assert (Hq : 0 <= q_den b / Z.gcd (q_den a) (q_den b) <= q_den b).
  { pose proof (Z.gcd_nonneg (q_den a) (q_den b)). assert (Z.gcd (q_den a) (q_den b) <> 0) by (intros E; apply Z.gcd_eq_0_l in E; lia).
    split; [apply Z.div_pos; lia|]. apply Z.div_le_upper_bound; nia. }
  assert (Hl : l <= q_den a * q_den b) by nia.
  assert (Ra : 0 <= l / q_den a <= q_den b) by (split; [apply Z.div_pos; lia|]; apply Z.div_le_upper_bound; lia).
  assert (Rb : 0 <= l / q_den b <= q_den a) by (split; [apply Z.div_pos; lia|]; apply Z.div_le_upper_bound; lia).
  assert (Za : - (2 ^ 31 * 2 ^ 31) < l / q_den a * q_num a < 2 ^ 31 * 2 ^ 31) by nia.
  assert (Zb : - (2 ^ 31 * 2 ^ 31) < l / q_den b * q_num b < 2 ^ 31 * 2 ^ 31) by nia.
  assert (Zn : - (2 ^ 31 * 2 ^ 31) < q_num a * q_num b < 2 ^ 31 * 2 ^ 31) by nia.
  assert (Zd : q_den a * q_den b < 2 ^ 31 * 2 ^ 31) by nia.
  unfold fits in *. repeat split; [apply H1|apply H2|apply H3|apply H4]; lia.
Qed.
(** derived equality is equality of rationals *)
Theorem C04_Q_eq a b : mq_lowest a -> mq_lowest b -> (a = b <-> Qeq (mq_val a) (mq_val b)).
Proof. intros Ha Hb. split; [now intros ->|]. now apply lowest_val_inj. Qed.
(** ideal rational arithmetic is a field *)
Theorem C04_Q_field : is_field qnz qi_add qi_mul qi_one qi_neg qi_inv /\
  (forall x y, oqv (lift_add qi_add x y) = Qcanon.Qcplus (oqv x) (oqv y)) /\
  (forall x y, oqv (lift_mul qi_mul x y) = Qcanon.Qcmult (oqv x) (oqv y)) /\
  (forall x y, oqv x = oqv y -> x = y) /\ (forall q, exists x, oqv x = q).
Proof.
  split; [exact q_field|]. split; [exact oqv_add|]. split; [exact oqv_mul|]. split; [exact oqv_inj|].
  intros q. exists (qmk q). apply oqv_mk.
Qed.
Example C04_ex : mq_lowest (MQ (-3) 4) /\ mq_lowest (MQ 5 6) /\
  q_add Release (MQ (-3) 4) (MQ 5 6) = Ok (Some (MQ 1 12)) /\ q_mul Debug (MQ (-3) 4) (MQ 2 3) = Ok (MQ (-1) 2).
Proof. unfold mq_lowest. simpl. repeat split; lia. Qed.

(* ------------------------------------------------------------------ *)
(** ** C05: where the overflow checks suffice, and where they do not *)

(** values of [Q] a user can produce (the fields are private) *)
Inductive q_reach (pf : profile) : mq -> Prop :=
| qr_one : q_reach pf q_one
| qr_add a b c : q_reach pf a -> q_reach pf b -> q_add pf a b = Ok (Some c) -> q_reach pf c
| qr_mul a b c : q_reach pf a -> q_reach pf b -> q_mul pf a b = Ok c -> q_reach pf c
| qr_neg a c : q_reach pf a -> q_neg pf a = Ok c -> q_reach pf c
| qr_inv a c : q_reach pf a -> q_inv pf a = Ok c -> q_reach pf c.

(** With overflow checks, an operation panics or is exact, except in the stated corner: a
    denominator (or common denominator) reaching 2^63, resp. a product -2^63 / 2^63. *)
Theorem C05_Q_panics_or_exact a b : mq_lowest a -> mq_lowest b ->
  (~ (q_num a * q_num b = - 2 ^ 63 /\ q_den a * q_den b = 2 ^ 63) ->
     q_mul Debug a b = Panic \/ q_exact (q_mul Debug a b) (mq_val a * mq_val b)%Q) /\
  (Z.lcm (q_den a) (q_den b) < 2 ^ 63 ->
     q_add Debug a b = Panic \/ q_exact_opt (q_add Debug a b) (mq_val a + mq_val b)%Q) /\
  (q_neg Debug a = Panic \/ q_exact (q_neg Debug a) (- mq_val a)%Q) /\
  (q_den a < 2 ^ 63 -> q_inv Debug a = Panic \/ q_exact (q_inv Debug a) (/ mq_val a)%Q).
Proof.
  intros Ha Hb. split; [now apply q_mul_debug|]. split; [now apply q_add_debug|]. split; [now apply q_neg_debug|].
  intros H. right. now apply q_inv_exact.
Qed.

(** both outcomes occur, with the hypotheses met *)
Example C05_ex : mq_lowest (MQ (2 ^ 62) 3) /\ mq_lowest (MQ 7 (2 ^ 62 + 1)) /\
  ~ (2 ^ 62 * 7 = - 2 ^ 63 /\ 3 * (2 ^ 62 + 1) = 2 ^ 63) /\ Z.lcm 3 5 < 2 ^ 63 /\
  q_mul Debug (MQ (2 ^ 62) 3) (MQ 7 (2 ^ 62 + 1)) = Panic /\ q_add Debug (MQ (2 ^ 62) 3) (MQ (2 ^ 62) 5) = Panic /\
  q_add Debug (MQ (2 ^ 60) 3) (MQ 1 5) = Ok (Some (MQ (5 * 2 ^ 60 + 3) 15)).
Proof.
  unfold mq_lowest. repeat match goal with |- _ /\ _ => split end; try (simpl; lia); try (vm_compute; reflexivity); try (vm_compute; discriminate).
Qed.

Lemma q_reach_pow pf (n : nat) : (n <= 62)%nat -> q_reach pf (MQ (2 ^ Z.of_nat n) 1).
Proof.
  induction n as [|n IH]; intros Hn; [apply qr_one|].
  eapply qr_add; [apply IH; lia|apply IH; lia|].
  do 62 (destruct n as [|n]; [destruct pf; reflexivity|]). lia.
Qed.
Lemma q_reach_min pf : q_reach pf (MQ (- 2 ^ 63) 1).
Proof.
  assert (H : q_reach pf (MQ (- 2 ^ 62) 1)).
  { eapply qr_neg; [apply (q_reach_pow pf 62); lia|]. destruct pf; reflexivity. }
  eapply qr_add; [exact H|exact H|]. destruct pf; reflexivity.
Qed.
Lemma q_reach_tiny pf : q_reach pf (MQ 1 (2 ^ 63)).
Proof.
  assert (H : q_reach pf (MQ 1 (2 ^ 62))).
  { eapply qr_inv; [apply (q_reach_pow pf 62); lia|]. destruct pf; reflexivity. }
  assert (H2 : q_reach pf (MQ 1 2)).
  { eapply qr_inv; [apply (q_reach_pow pf 1); lia|]. destruct pf; reflexivity. }
  eapply qr_mul; [exact H|exact H2|]. destruct pf; reflexivity.
Qed.
(** The claim "panics or is exact" is false in general: values the public API can produce, in lowest
    terms, on which multiplication, addition and inversion silently return a wrong value. *)
Theorem C05_Q_silent_wrong pf : exists a b,
  q_reach pf a /\ q_reach pf b /\ mq_lowest a /\ mq_lowest b /\
  (exists r, q_mul pf a b = Ok r /\ ~ Qeq (mq_val r) (mq_val a * mq_val b)) /\
  (exists r, q_add pf (MQ 1 1) b = Ok (Some r) /\ ~ Qeq (mq_val r) (mq_val (MQ 1 1) + mq_val b)) /\
  (exists r, q_inv pf b = Ok r /\ ~ Qeq (mq_val r) (/ mq_val b)).
Proof.
  exists (MQ (- 2 ^ 63) 1), (MQ 1 (2 ^ 63)). split; [apply q_reach_min|]. split; [apply q_reach_tiny|].
  split; [unfold mq_lowest; simpl; repeat split; lia|]. split; [unfold mq_lowest; simpl; repeat split; lia|].
  split; [|split].
  - exists (MQ 1 1). split; [destruct pf; reflexivity|]. unfold Qeq. vm_compute. discriminate.
  - eexists. split; [destruct pf; vm_compute; reflexivity|]. unfold Qeq. vm_compute. discriminate.
  - eexists. split; [destruct pf; vm_compute; reflexivity|]. unfold Qeq. vm_compute. discriminate.
Qed.

Print Assumptions C02_ZP_field.
Print Assumptions C03_unsuitable.
Print Assumptions C04_Q_small.
Print Assumptions C04_Q_field.
Print Assumptions C05_Q_panics_or_exact.
Print Assumptions C05_Q_silent_wrong.
