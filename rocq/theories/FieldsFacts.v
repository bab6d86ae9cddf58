(** Proofs about [Fields.v]: the provided coefficient types are fields. *)
From Verif Require Import Base Fields.
From Coq Require Import Eqdep_dec Zquot Znumtheory.
Local Open Scope Z_scope.

(** A way to establish [is_field] by transport along an injection [val]
    into a commutative structure where the laws are known is not needed:
    we check the laws directly. *)

Lemma is_field_intro (K : Type) add mul one neg inv :
  let A := lift_add add in let M := lift_mul mul in
  (forall x y : option K, A x y = A y x) ->
  (forall x y z : option K, A x (A y z) = A (A x y) z) ->
  (forall x : option K, A x (lift_map neg x) = None) ->
  (forall x y : option K, M x y = M y x) ->
  (forall x y z : option K, M x (M y z) = M (M x y) z) ->
  (forall x : option K, M (Some one) x = x) ->
  (forall x y z : option K, M (A x y) z = A (M x z) (M y z)) ->
  (forall a, mul (inv a) a = one) ->
  is_field K add mul one neg inv.
Proof.
  intros A M Ac Aa An Mc Ma M1 D I. constructor; [constructor|..].
  - reflexivity.
  - exact Ac.
  - exact Aa.
  - exact M1.
  - exact Mc.
  - exact Ma.
  - exact D.
  - reflexivity.
  - exact An.
  - discriminate.
  - reflexivity.
  - intros [a|] H; [|congruence]. simpl. now rewrite I.
Qed.

(* ------------------------------------------------------------------ *)
(** ** Z2 *)

Lemma z2_field : is_field z2 z2_add z2_mul z2_one z2_neg z2_inv.
Proof.
  apply is_field_intro; simpl;
    repeat match goal with
           | |- forall x : option z2, _ => intros [[]|]
           | |- forall x : z2, _ => intros []
           end; reflexivity.
Qed.

Lemma z2_eqb_eq x y : z2_eqb x y = true <-> x = y.
Proof. destruct x, y. unfold z2_eqb. tauto. Qed.

Definition Z2_coeff : coeffT :=
  CoeffT z2 z2_eqb z2_add z2_mul z2_one z2_neg z2_inv z2_eqb_eq z2_field.

(* ------------------------------------------------------------------ *)
(** ** ZP *)

Definition zp_prime (p : Z) : Prop := In p [3; 5; 7; 11; 13].

(** A coefficient of [ZP<P>] reachable through the public API. *)
Definition zp_ok (p a : Z) : Prop := 1 <= a < p.

Lemma zp_prime_bound p : zp_prime p -> 3 <= p <= 13.
Proof. unfold zp_prime. simpl. lia. Qed.

Lemma zp_mul_le p a b : zp_prime p -> zp_ok p a -> zp_ok p b -> a * b <= 144.
Proof.
  intros H%zp_prime_bound Ha Hb. unfold zp_ok in *.
  assert (a * b <= 12 * 12) by (apply Z.mul_le_mono_nonneg; lia). lia.
Qed.

Lemma zp_prime_prime p : zp_prime p -> prime p.
Proof.
  intros H. assert (E : forall q, 1 < q -> (forall n, 1 <= n < q -> Z.gcd n q = 1) -> prime q).
  { intros q Hq Hn. constructor; auto. intros n Hn'. apply Zgcd_1_rel_prime. auto. }
  unfold zp_prime in H. simpl in H.
  destruct H as [<-|[<-|[<-|[<-|[<-|[]]]]]]; apply E; try lia; intros n Hn;
  (assert (n = 1 \/ n = 2 \/ n = 3 \/ n = 4 \/ n = 5 \/ n = 6 \/ n = 7 \/ n = 8 \/ n = 9
           \/ n = 10 \/ n = 11 \/ n = 12) by lia);
  repeat match goal with H : _ \/ _ |- _ => destruct H as [->|H] | H : n = _ |- _ => subst n end;
  first [reflexivity | lia].
Qed.

Lemma zp_mul_nonzero p a b : zp_prime p -> zp_ok p a -> zp_ok p b -> (a * b) mod p <> 0.
Proof.
  intros Hp Ha Hb H. unfold zp_ok in *.
  pose proof (zp_prime_prime p Hp) as P.
  apply Z.mod_divide in H; [|lia].
  apply prime_mult in H; auto. destruct H as [H|H]; apply Z.divide_pos_le in H; lia.
Qed.

(** Exact functional behaviour of the machine operations on valid operands. *)
Lemma zp_add_spec p a b : zp_prime p -> zp_ok p a -> zp_ok p b ->
  zp_add p a b = Ok (if (a + b) mod p =? 0 then None else Some ((a + b) mod p)).
Proof.
  intros Hp Ha Hb. pose proof (zp_prime_bound p Hp). unfold zp_ok in *. unfold zp_add, u8_max.
  destruct (Z.leb_spec (a + b) 255); [|lia]. simpl.
  destruct (Z.eqb_spec p 0); [lia|]. reflexivity.
Qed.

Lemma zp_mul_spec p a b : zp_prime p -> zp_ok p a -> zp_ok p b ->
  zp_mul p a b = Ok ((a * b) mod p).
Proof.
  intros Hp Ha Hb. pose proof (zp_prime_bound p Hp). unfold zp_mul, u8_max.
  pose proof (zp_mul_le p a b Hp Ha Hb).
  destruct (Z.leb_spec (a * b) 255); [|lia]. simpl.
  destruct (Z.eqb_spec p 0); [lia|]. simpl.
  destruct (Z.eqb_spec ((a * b) mod p) 0) as [E|E]; auto.
  exfalso. now apply (zp_mul_nonzero p a b).
Qed.

Lemma zp_neg_spec p a : zp_prime p -> zp_ok p a -> zp_neg p a = Ok (p - a).
Proof. intros Hp Ha. unfold zp_neg, zp_ok in *. destruct (Z.ltb_spec a p); auto; lia. Qed.

Lemma zp_inv_spec p a : zp_prime p -> zp_ok p a ->
  exists b, zp_inv p a = Ok b /\ zp_ok p b /\ (b * a) mod p = 1.
Proof.
  intros Hp Ha. unfold zp_ok in *. unfold zp_prime in Hp. simpl in Hp.
  assert (a = 1 \/ a = 2 \/ a = 3 \/ a = 4 \/ a = 5 \/ a = 6 \/ a = 7 \/ a = 8 \/ a = 9
           \/ a = 10 \/ a = 11 \/ a = 12) as D by lia.
  destruct Hp as [<-|[<-|[<-|[<-|[<-|[]]]]]];
  repeat match goal with H : _ \/ _ |- _ => destruct H as [->|H] | H : a = _ |- _ => subst a end;
  try lia; (eexists; split; [reflexivity|]); split; (reflexivity || lia).
Qed.

(** The carrier of valid coefficients and the induced total operations. *)
Definition zp_okb (p a : Z) : bool := (1 <=? a) && (a <? p).
Lemma zp_okb_iff p a : zp_okb p a = true <-> zp_ok p a.
Proof. unfold zp_okb, zp_ok. lia. Qed.

Definition zp (p : Z) : Type := { a : Z | zp_okb p a = true }.
Definition zval {p} (x : zp p) : Z := proj1_sig x.

Lemma zp_eq p (x y : zp p) : zval x = zval y -> x = y.
Proof.
  destruct x as [x Hx], y as [y Hy]; unfold zval; simpl. intros <-.
  f_equal. apply UIP_dec. apply bool_dec.
Qed.

Lemma zval_ok p (x : zp p) : zp_ok p (zval x).
Proof. apply zp_okb_iff. exact (proj2_sig x). Qed.

Section ZP.
  Variable p : Z.
  Hypothesis Hp : zp_prime p.

  Lemma zp_one_ok : zp_okb p 1 = true.
  Proof. apply zp_okb_iff. pose proof (zp_prime_bound p Hp). unfold zp_ok; lia. Qed.

  (** The value [r] as a coefficient (only used for valid [r]). *)
  Definition zp_mk (r : Z) : zp p :=
    match bool_dec (zp_okb p r) true with
    | left H => exist _ r H
    | right _ => exist _ 1 zp_one_ok
    end.

  Lemma zval_mk r : zp_ok p r -> zval (zp_mk r) = r.
  Proof.
    intros H%zp_okb_iff. unfold zp_mk. destruct (bool_dec _ _); [reflexivity|contradiction].
  Qed.

  Definition zpt_add (x y : zp p) : option (zp p) :=
    match zp_add p (zval x) (zval y) with Ok (Some r) => Some (zp_mk r) | _ => None end.
  Definition zpt_mul (x y : zp p) : zp p :=
    match zp_mul p (zval x) (zval y) with Ok r => zp_mk r | _ => zp_mk 1 end.
  Definition zpt_neg (x : zp p) : zp p :=
    match zp_neg p (zval x) with Ok r => zp_mk r | _ => zp_mk 1 end.
  Definition zpt_inv (x : zp p) : zp p :=
    match zp_inv p (zval x) with Ok r => zp_mk r | _ => zp_mk 1 end.
  Definition zpt_one : zp p := zp_mk zp_one.
  Definition zpt_eqb (x y : zp p) : bool := zval x =? zval y.

  Lemma zpt_eqb_eq x y : zpt_eqb x y = true <-> x = y.
  Proof.
    unfold zpt_eqb. rewrite Z.eqb_eq. split; [apply zp_eq|congruence].
  Qed.

  Definition oval (x : option (zp p)) : Z := match x with Some a => zval a | None => 0 end.

  Lemma oval_range x : 0 <= oval x < p.
  Proof.
    destruct x as [x|]; simpl. pose proof (zval_ok p x). unfold zp_ok in *; lia.
    pose proof (zp_prime_bound p Hp). lia.
  Qed.

  Lemma oval_inj x y : oval x = oval y -> x = y.
  Proof.
    destruct x as [x|], y as [y|]; simpl; auto.
    - intros H. f_equal. now apply zp_eq.
    - pose proof (zval_ok p x). unfold zp_ok in *; lia.
    - pose proof (zval_ok p y). unfold zp_ok in *; lia.
  Qed.

  Lemma oval_add x y : oval (lift_add zpt_add x y) = (oval x + oval y) mod p.
  Proof.
    pose proof (oval_range x). pose proof (oval_range y).
    destruct x as [x|], y as [y|]; simpl in *; rewrite ?Z.add_0_r, ?Z.mod_small by lia; auto.
    unfold zpt_add. rewrite zp_add_spec by auto using zval_ok.
    pose proof (Z.mod_pos_bound (zval x + zval y) p).
    destruct (Z.eqb_spec ((zval x + zval y) mod p) 0) as [E|E]; simpl; auto.
    apply zval_mk. unfold zp_ok. lia.
  Qed.

  Lemma oval_mul x y : oval (lift_mul zpt_mul x y) = (oval x * oval y) mod p.
  Proof.
    pose proof (zp_prime_bound p Hp).
    destruct x as [x|], y as [y|]; simpl; rewrite ?Z.mul_0_r, ?Z.mod_0_l by lia; auto.
    unfold zpt_mul. rewrite zp_mul_spec by auto using zval_ok.
    apply zval_mk. unfold zp_ok.
    pose proof (Z.mod_pos_bound (zval x * zval y) p).
    pose proof (zp_mul_nonzero p _ _ Hp (zval_ok p x) (zval_ok p y)). lia.
  Qed.

  Lemma oval_neg x : oval (lift_map zpt_neg x) = (- oval x) mod p.
  Proof.
    pose proof (zp_prime_bound p Hp).
    destruct x as [x|]; simpl; rewrite ?Z.mod_0_l by lia; auto.
    unfold zpt_neg. pose proof (zval_ok p x) as Hx. rewrite zp_neg_spec by auto.
    unfold zp_ok in *. rewrite zval_mk by (unfold zp_ok; lia).
    rewrite <- (Z.mod_small (p - zval x) p) by lia.
    replace (p - zval x) with (- zval x + 1 * p) by lia. now rewrite Z.mod_add by lia.
  Qed.

  Lemma zpt_inv_l x : zpt_mul (zpt_inv x) x = zpt_one.
  Proof.
    apply zp_eq. pose proof (zp_prime_bound p Hp) as Hb.
    destruct (zp_inv_spec p (zval x) Hp (zval_ok p x)) as (b & Hb1 & Hb2 & Hb3).
    unfold zpt_inv. rewrite Hb1. unfold zpt_mul. rewrite zval_mk by auto.
    rewrite zp_mul_spec by auto using zval_ok. rewrite Hb3.
    unfold zpt_one, zp_one. rewrite !zval_mk by (unfold zp_ok; lia). reflexivity.
  Qed.

  Lemma oval_one : oval (Some zpt_one) = 1.
  Proof.
    pose proof (zp_prime_bound p Hp) as Hb.
    simpl. unfold zpt_one, zp_one. apply zval_mk. unfold zp_ok; lia.
  Qed.

  Lemma zp_field : is_field (zp p) zpt_add zpt_mul zpt_one zpt_neg zpt_inv.
  Proof.
    pose proof (zp_prime_bound p Hp).
    apply is_field_intro; intros; try apply oval_inj;
      rewrite ?oval_add, ?oval_mul, ?oval_neg, ?oval_add, ?oval_mul, ?oval_one.
    - now rewrite Z.add_comm.
    - rewrite Zplus_mod_idemp_r, Zplus_mod_idemp_l. f_equal. lia.
    - rewrite Zplus_mod_idemp_r, Z.add_opp_diag_r. now rewrite Z.mod_0_l by lia.
    - now rewrite Z.mul_comm.
    - rewrite Zmult_mod_idemp_r, Zmult_mod_idemp_l. f_equal. lia.
    - rewrite Z.mul_1_l. apply Z.mod_small. apply oval_range.
    - rewrite Zmult_mod_idemp_l, Zplus_mod_idemp_l, Zplus_mod_idemp_r. f_equal. lia.
    - apply zpt_inv_l.
  Qed.

  Definition ZP_coeff : coeffT :=
    CoeffT (zp p) zpt_eqb zpt_add zpt_mul zpt_one zpt_neg zpt_inv zpt_eqb_eq zp_field.
End ZP.

Lemma prime3 : zp_prime 3. Proof. unfold zp_prime; simpl; tauto. Qed.
Lemma prime5 : zp_prime 5. Proof. unfold zp_prime; simpl; tauto. Qed.
Lemma prime7 : zp_prime 7. Proof. unfold zp_prime; simpl; tauto. Qed.
Lemma prime11 : zp_prime 11. Proof. unfold zp_prime; simpl; tauto. Qed.
Lemma prime13 : zp_prime 13. Proof. unfold zp_prime; simpl; tauto. Qed.
Definition Z3_coeff := ZP_coeff 3 prime3.
Definition Z5_coeff := ZP_coeff 5 prime5.
Definition Z7_coeff := ZP_coeff 7 prime7.
Definition Z11_coeff := ZP_coeff 11 prime11.
Definition Z13_coeff := ZP_coeff 13 prime13.

(** The total operations are the machine operations. *)
Lemma zpt_faithful p (Hp : zp_prime p) (x y : zp p) :
  zp_add p (zval x) (zval y) = Ok (option_map zval (zpt_add p Hp x y)) /\
  zp_mul p (zval x) (zval y) = Ok (zval (zpt_mul p Hp x y)) /\
  zp_neg p (zval x) = Ok (zval (zpt_neg p Hp x)) /\
  zp_inv p (zval x) = Ok (zval (zpt_inv p Hp x)).
Proof.
  pose proof (zp_prime_bound p Hp). pose proof (zval_ok p x) as Hx. pose proof (zval_ok p y) as Hy.
  split; [|split; [|split]].
  - unfold zpt_add. rewrite zp_add_spec by auto.
    destruct (Z.eqb_spec ((zval x + zval y) mod p) 0) as [E|E]; simpl; auto.
    rewrite zval_mk; auto. pose proof (Z.mod_pos_bound (zval x + zval y) p). unfold zp_ok. lia.
  - unfold zpt_mul. rewrite zp_mul_spec by auto. rewrite zval_mk; auto.
    pose proof (Z.mod_pos_bound (zval x * zval y) p).
    pose proof (zp_mul_nonzero p _ _ Hp Hx Hy). unfold zp_ok. lia.
  - unfold zpt_neg. rewrite zp_neg_spec by auto. rewrite zval_mk; auto. unfold zp_ok in *. lia.
  - destruct (zp_inv_spec p (zval x) Hp Hx) as (b & Hb & Hb2 & _).
    unfold zpt_inv. rewrite Hb, zval_mk; auto.
Qed.

(* ------------------------------------------------------------------ *)
(** ** Unsuitable P *)

Lemma zp_mul_panics_iff P a b : 1 <= P <= 255 -> 1 <= a -> 1 <= b ->
  (zp_mul P a b = Panic <-> a * b > 255 \/ (a * b) mod P = 0).
Proof.
  intros HP Ha Hb. unfold zp_mul, u8_max.
  destruct (Z.leb_spec (a * b) 255); simpl.
  - destruct (Z.eqb_spec P 0); [lia|]. simpl.
    destruct (Z.eqb_spec ((a * b) mod P) 0); split; try lia; intros; try congruence; auto.
  - split; auto. lia.
Qed.

Lemma zp_mul_panics_big P : 17 <= P <= 255 -> zp_mul P (P - 1) (P - 1) = Panic.
Proof. intros H. apply zp_mul_panics_iff; try lia. left. nia. Qed.

Lemma zp_mul_panics_composite P a b :
  1 <= P <= 255 -> 1 < a -> 1 < b -> P = a * b -> zp_ok P a /\ zp_ok P b /\ zp_mul P a b = Panic.
Proof.
  intros H Ha Hb E. unfold zp_ok. split; [nia|]. split; [nia|].
  apply zp_mul_panics_iff; try lia. right. rewrite <- E. now rewrite Z.mod_same by lia.
Qed.
