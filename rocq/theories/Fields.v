(** Model of phlite/src/fields.rs. *)
From Verif Require Import Base.
From Coq Require Export Field_theory Ring_theory.
Local Open Scope Z_scope.

(* ------------------------------------------------------------------ *)
(** ** The traits [NonZeroCoefficient] and [Invertible] *)

(** [impl Add<Option<Self>> for Self], as generated by [impl_add_options!]
    (fields.rs 69-82) and written by hand for [ZP] (fields.rs 127-136):
    adding [None] returns [Some(self)]. *)
Definition add_opt {K : Type} (add : K -> K -> option K) (a : K) (b : option K) : option K :=
  match b with
  | None => Some a
  | Some b => add a b
  end.

(** The operations extended to the absent coefficient, which stands for 0. *)
Definition lift_add {K : Type} (add : K -> K -> option K) (x y : option K) : option K :=
  match x with None => y | Some a => add_opt add a y end.
Definition lift_mul {K : Type} (mul : K -> K -> K) (x y : option K) : option K :=
  match x, y with Some a, Some b => Some (mul a b) | _, _ => None end.
Definition lift_map {K : Type} (f : K -> K) (x : option K) : option K :=
  match x with Some a => Some (f a) | None => None end.

(** "The non-zero elements of a field": with [None] as zero the operations
    form a field in the sense of Coq's standard library. *)
Definition is_field (K : Type) (add : K -> K -> option K) (mul : K -> K -> K)
    (one : K) (neg inv : K -> K) : Prop :=
  field_theory (R := option K) None (Some one)
    (lift_add add) (lift_mul mul)
    (fun x y => lift_add add x (lift_map neg y)) (lift_map neg)
    (fun x y => lift_mul mul x (lift_map inv y)) (lift_map inv) eq.

(** fields.rs 12-36: traits [NonZeroCoefficient] (Eq, Add, Mul, [one],
    [additive_inverse]) and [Invertible] ([mult_inverse]).  The last two
    fields are the contract of the traits ("Represents a non-zero
    coefficient in a matrix", field laws). *)
Record coeffT : Type := CoeffT {
  kcar :> Type;
  k_eqb : kcar -> kcar -> bool;
  k_add : kcar -> kcar -> option kcar;
  k_mul : kcar -> kcar -> kcar;
  k_one : kcar;
  k_neg : kcar -> kcar;
  k_inv : kcar -> kcar;
  k_eqb_eq : forall x y, k_eqb x y = true <-> x = y;
  k_field : is_field kcar k_add k_mul k_one k_neg k_inv
}.
Arguments k_eqb {c} _ _.
Arguments k_add {c} _ _.
Arguments k_mul {c} _ _.
Arguments k_one {c}.
Arguments k_neg {c} _.
Arguments k_inv {c} _.

(** Scalars including zero. *)
Definition f0 {K : coeffT} : option K := None.
Definition f1 {K : coeffT} : option K := Some k_one.
Definition fadd {K : coeffT} : option K -> option K -> option K := lift_add k_add.
Definition fmul {K : coeffT} : option K -> option K -> option K := lift_mul k_mul.
Definition fopp {K : coeffT} : option K -> option K := lift_map k_neg.
Definition finv {K : coeffT} : option K -> option K := lift_map k_inv.
Definition fsub {K : coeffT} (x y : option K) : option K := fadd x (fopp y).
Definition fdiv {K : coeffT} (x y : option K) : option K := fmul x (finv y).

Arguments fadd : simpl never.
Arguments fmul : simpl never.
Arguments fopp : simpl never.
Arguments finv : simpl never.
Arguments fsub : simpl never.
Arguments fdiv : simpl never.

Lemma F_field (K : coeffT) : field_theory (R := option K) f0 f1 fadd fmul fsub fopp fdiv finv eq.
Proof. exact (k_field K). Qed.

Lemma F_ring (K : coeffT) : ring_theory (R := option K) f0 f1 fadd fmul fsub fopp eq.
Proof. exact (F_R (F_field K)). Qed.

(* ------------------------------------------------------------------ *)
(** ** [Z2] (fields.rs 38-63, 84-94) *)

(** fields.rs 40: [pub struct Z2;] *)
Inductive z2 : Type := Z2.
(** fields.rs 42-48 *)
Definition z2_add (_ _ : z2) : option z2 := None.
(** fields.rs 50-57 *)
Definition z2_mul (_ _ : z2) : z2 := Z2.
(** fields.rs 59-63 *)
Definition z2_inv (x : z2) : z2 := x.
(** fields.rs 86-94 *)
Definition z2_one : z2 := Z2.
Definition z2_neg (x : z2) : z2 := x.
(** derived [PartialEq] on a unit struct, fields.rs 39 *)
Definition z2_eqb (_ _ : z2) : bool := true.

(* ------------------------------------------------------------------ *)
(** ** [ZP<P>] over [NonZeroU8] (fields.rs 99-172) *)

(** A [ZP<P>] value is the contained [NonZeroU8], as an integer 1..255. *)

Definition u8_max : Z := 255.

(** fields.rs 113-125: [checked_add(..).expect(..).get().rem_euclid(P)] then
    [NonZeroU8::new(result)?]. [rem_euclid(0)] panics. *)
Definition zp_add (P a b : Z) : res (option Z) :=
  do s <- (if a + b <=? u8_max then Ok (a + b) else Panic);
  do r <- (if P =? 0 then Panic else Ok (s mod P));
  Ok (if r =? 0 then None else Some r).

(** fields.rs 138-151: [checked_mul(..).expect(..).get().rem_euclid(P)] then
    [NonZeroU8::new(product).expect(..)]. *)
Definition zp_mul (P a b : Z) : res Z :=
  do s <- (if a * b <=? u8_max then Ok (a * b) else Panic);
  do r <- (if P =? 0 then Panic else Ok (s mod P));
  if r =? 0 then Panic else Ok r.

(** fields.rs 154-156: [NonZeroU8::new_unchecked(1)]. *)
Definition zp_one : Z := 1.

(** fields.rs 158-160: [new_unchecked(P - self.0.get())].  A [u8] underflow
    (panic under overflow checks) or a zero passed to [new_unchecked]
    (undefined behaviour) is represented by [Panic]. *)
Definition zp_neg (P a : Z) : res Z :=
  if a <? P then Ok (P - a) else Panic.

(** fields.rs 174-251: the five [mult_inverse] tables. *)
Definition z3_inv (a : Z) : res Z :=
  match a with 1 => Ok 1 | 2 => Ok 2 | _ => Panic end.
Definition z5_inv (a : Z) : res Z :=
  match a with 1 => Ok 1 | 2 => Ok 3 | 3 => Ok 2 | 4 => Ok 4 | _ => Panic end.
Definition z7_inv (a : Z) : res Z :=
  match a with
  | 1 => Ok 1 | 2 => Ok 4 | 3 => Ok 5 | 4 => Ok 2 | 5 => Ok 3 | 6 => Ok 6
  | _ => Panic end.
Definition z11_inv (a : Z) : res Z :=
  match a with
  | 1 => Ok 1 | 2 => Ok 6 | 3 => Ok 4 | 4 => Ok 3 | 5 => Ok 9 | 6 => Ok 2
  | 7 => Ok 8 | 8 => Ok 7 | 9 => Ok 5 | 10 => Ok 10
  | _ => Panic end.
Definition z13_inv (a : Z) : res Z :=
  match a with
  | 1 => Ok 1 | 2 => Ok 7 | 3 => Ok 9 | 4 => Ok 10 | 5 => Ok 8 | 6 => Ok 11
  | 7 => Ok 2 | 8 => Ok 5 | 9 => Ok 3 | 10 => Ok 4 | 11 => Ok 6 | 12 => Ok 12
  | _ => Panic end.

(** [impl Invertible for Z3/Z5/Z7/Z11/Z13]: the table selected by [P];
    there is no impl for other [P]. *)
Definition zp_inv (P : Z) : Z -> res Z :=
  if P =? 3 then z3_inv else if P =? 5 then z5_inv else if P =? 7 then z7_inv
  else if P =? 11 then z11_inv else if P =? 13 then z13_inv else (fun _ => Panic).

(* ------------------------------------------------------------------ *)
(** ** [Q] over [(isize, usize)] (fields.rs 253-304) *)

(** Build profile: with overflow checks (debug) arithmetic overflow panics;
    without (release) it wraps. 64-bit target. *)
Inductive profile : Type := Debug | Release.

Definition in_isize (z : Z) : bool := (- 2 ^ 63 <=? z) && (z <? 2 ^ 63).
Definition in_usize (z : Z) : bool := (0 <=? z) && (z <? 2 ^ 64).
(** two's complement reading of the low 64 bits: the cast [as isize] *)
Definition to_isize (z : Z) : Z := (z + 2 ^ 63) mod 2 ^ 64 - 2 ^ 63.
Definition to_usize (z : Z) : Z := z mod 2 ^ 64.

(** Result of an arithmetic operation whose exact value is [z]. *)
Definition isize_op (pf : profile) (z : Z) : res Z :=
  if in_isize z then Ok z else match pf with Debug => Panic | Release => Ok (to_isize z) end.
Definition usize_op (pf : profile) (z : Z) : res Z :=
  if in_usize z then Ok z else match pf with Debug => Panic | Release => Ok (to_usize z) end.

(** fields.rs 255: [pub struct Q(isize, usize)]. *)
Record mq : Type := MQ { q_num : Z; q_den : Z }.

(** Truncating division [a / b] on [isize]: division by zero and
    [MIN / -1] panic in every profile. *)
Definition isize_div (a b : Z) : res Z :=
  if b =? 0 then Panic
  else if in_isize (Z.quot a b) then Ok (Z.quot a b) else Panic.
Definition usize_div (a b : Z) : res Z :=
  if b =? 0 then Panic else Ok (a / b).

(** fields.rs 258-261: [reduce].  [unsigned_abs] of [isize] never overflows;
    [gcd] is num-integer's gcd on [usize]; [gcd as isize] is a cast. *)
Definition q_reduce (a : mq) : res mq :=
  let gcd := Z.gcd (Z.abs (q_num a)) (q_den a) in
  do n <- isize_div (q_num a) (to_isize gcd);
  do d <- usize_div (q_den a) gcd;
  Ok (MQ n d).

(** num-integer 0.1.46 [lcm] on [usize]: [a * (b / gcd(a,b))]. *)
Definition usize_lcm (pf : profile) (a b : Z) : res Z :=
  if (a =? 0) && (b =? 0) then Ok 0
  else do q <- usize_div b (Z.gcd a b); usize_op pf (a * q).

(** fields.rs 264-277 *)
Definition q_add (pf : profile) (a b : mq) : res (option mq) :=
  do l <- usize_lcm pf (q_den a) (q_den b);
  do fa <- usize_div l (q_den a);
  do ta <- isize_op pf (to_isize fa * q_num a);
  do fb <- usize_div l (q_den b);
  do tb <- isize_op pf (to_isize fb * q_num b);
  do n <- isize_op pf (ta + tb);
  if n =? 0 then Ok None
  else do r <- q_reduce (MQ n l); Ok (Some r).

(** fields.rs 281-287 *)
Definition q_mul (pf : profile) (a b : mq) : res mq :=
  do n <- isize_op pf (q_num a * q_num b);
  do d <- usize_op pf (q_den a * q_den b);
  q_reduce (MQ n d).

(** fields.rs 290-292 *)
Definition q_one : mq := MQ 1 1.

(** fields.rs 294-296 *)
Definition q_neg (pf : profile) (a : mq) : res mq :=
  do n <- isize_op pf (- q_num a); Ok (MQ n (q_den a)).

(** fields.rs 299-304; [sign * self.1 as isize] parses as
    [sign * (self.1 as isize)]. *)
Definition q_inv (pf : profile) (a : mq) : res mq :=
  do n <- isize_op pf (Z.sgn (q_num a) * to_isize (q_den a));
  Ok (MQ n (Z.abs (q_num a))).
