(** Specification of the input of the Rips program: which texts describe which table, and which dimension is asked for. *)
From Verif Require Import Base.
Set Implicit Arguments.

(** Every record is readable, every field is a number that is not NaN, and all records have the same number of fields. *)
Definition describes {T X : Type} {F : ordT} (parse_f64 : T -> option X) (not_nan : X -> option F)
    (records : list (option (list T))) (d : list (list F)) : Prop :=
  Forall2 (fun rec row => exists fields, rec = Some fields /\
    Forall2 (fun e x => exists y, parse_f64 e = Some y /\ not_nan y = Some x) fields row) records d /\
  forall r r', In r d -> In r' d -> length r = length r'.
(** The first argument as a number; 1 without an argument. *)
Definition asks_for {A : Type} (parse_usize : A -> option nat) (arg : option A) (m : nat) : Prop :=
  (arg = None /\ m = 1) \/ exists a, arg = Some a /\ parse_usize a = Some m.
