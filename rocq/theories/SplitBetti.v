(** Direct sums: if cycles and boundaries split along a partition of the coordinates, dimensions of quotients add. *)
From Coq Require Import Lia FinFun.
From Verif Require Import Base Fields FieldsFacts Spec LinAlg Persistence.
Set Implicit Arguments.

(** the disjoint union of two orders *)
Definition sum_cmp {A B : ordT} (x y : A + B) : comparison :=
  match x, y with inl a, inl a' => cmp a a' | inl _, inr _ => Lt | inr _, inl _ => Gt | inr b, inr b' => cmp b b' end.
Lemma sum_cmp_eq (A B : ordT) (x y : A + B) : sum_cmp x y = Eq <-> x = y.
Proof. destruct x as [a|b], y as [a'|b']; cbn [sum_cmp]; try (split; discriminate); rewrite cmp_eq_iff; split; congruence. Qed.
Lemma sum_cmp_opp (A B : ordT) (x y : A + B) : sum_cmp y x = CompOpp (sum_cmp x y).
Proof. destruct x as [a|b], y as [a'|b']; cbn [sum_cmp]; auto; apply cmp_opp. Qed.
Lemma sum_cmp_trans (A B : ordT) (x y w : A + B) : sum_cmp x y = Lt -> sum_cmp y w = Lt -> sum_cmp x w = Lt.
Proof. destruct x as [a|b], y as [a'|b'], w as [a''|b'']; cbn [sum_cmp]; intros H1 H2; try discriminate; auto; eapply cmp_trans; eauto. Qed.
Definition sum_ord (A B : ordT) : ordT := @OrdT (A + B) (@sum_cmp A B) (@sum_cmp_eq A B) (@sum_cmp_opp A B) (@sum_cmp_trans A B).

Section Split.
  Context {K : coeffT} {X : Type}.
  Add Field KFSplit : (F_field K).
  Notation chain := (X -> option K).
  (** [k] is the dimension of the space [cyc] modulo [bnd] *)
  Definition gbetti (cyc bnd : chain -> Prop) (k : nat) : Prop :=
    exists (I : ordT) (bars : list I) (Z : I -> chain), NoDup bars /\ length bars = k /\
      (forall b, In b bars -> cyc (Z b)) /\
      (forall e, cyc e -> exists a : vec K I, bnd (fun x => fsub (e x) (vsum bars (fun b => fmul (a b) (Z b x))))) /\
      (forall a : vec K I, bnd (fun x => vsum bars (fun b => fmul (a b) (Z b x))) -> forall b, In b bars -> a b = f0).
  Definition restrict (q : X -> bool) (e : chain) : chain := fun x => if q x then e x else f0.
  Definition extensional (P : chain -> Prop) : Prop := forall e e', (forall x, e x = e' x) -> P e -> P e'.

  Variables (cyc bnd cyc1 bnd1 cyc2 bnd2 : chain -> Prop) (q : X -> bool).
  Hypothesis C0 : forall e, cyc e -> cyc1 (restrict q e) /\ cyc2 (restrict (fun x => negb (q x)) e).
  Hypothesis C1 : forall e, cyc1 e -> cyc e /\ forall x, q x = false -> e x = f0.
  Hypothesis C2 : forall e, cyc2 e -> cyc e /\ forall x, q x = true -> e x = f0.
  Hypothesis B0 : forall e, bnd e -> bnd1 (restrict q e) /\ bnd2 (restrict (fun x => negb (q x)) e).
  Hypothesis B12 : forall e1 e2, bnd1 e1 -> bnd2 e2 -> bnd (fun x => fadd (e1 x) (e2 x)).
  Hypothesis X0 : extensional bnd.
  Hypothesis X1 : extensional bnd1.
  Hypothesis X2 : extensional bnd2.

  Lemma gbetti_sum k1 k2 : gbetti cyc1 bnd1 k1 -> gbetti cyc2 bnd2 k2 -> gbetti cyc bnd (k1 + k2).
  Proof.
    intros (I1 & l1 & Z1 & A1 & A2 & A3 & A4 & A5) (I2 & l2 & Z2 & D1 & D2 & D3 & D4 & D5).
    set (Z := fun i : sum_ord I1 I2 => match i with inl i => Z1 i | inr j => Z2 j end).
    set (l := map inl l1 ++ map inr l2 : list (sum_ord I1 I2)).
    assert (Hs : forall (a : vec K (sum_ord I1 I2)) x, vsum l (fun b => fmul (a b) (Z b x)) =
      fadd (vsum l1 (fun b => fmul (a (inl b : sum_ord I1 I2)) (Z1 b x))) (vsum l2 (fun b => fmul (a (inr b : sum_ord I1 I2)) (Z2 b x)))).
    { intros a x. unfold l. rewrite vsum_app. f_equal; [exact (vsum_map l1 (inl : I1 -> sum_ord I1 I2) (fun b => fmul (a b) (Z b x)))|exact (vsum_map l2 (inr : I2 -> sum_ord I1 I2) (fun b => fmul (a b) (Z b x)))]. }
    assert (S1 : forall (a : vec K I1) x, q x = false -> vsum l1 (fun b => fmul (a b) (Z1 b x)) = f0) by (intros a x Hx; apply vsum_0; intros b Hb; rewrite (proj2 (C1 (A3 b Hb)) x Hx); ring).
    assert (S2 : forall (a : vec K I2) x, q x = true -> vsum l2 (fun b => fmul (a b) (Z2 b x)) = f0) by (intros a x Hx; apply vsum_0; intros b Hb; rewrite (proj2 (C2 (D3 b Hb)) x Hx); ring).
    exists (sum_ord I1 I2), l, Z. split; [|split; [|split; [|split]]].
    - unfold l. apply nodup_app_intro; [apply FinFun.Injective_map_NoDup; auto; intros a b [= H]; exact H|apply FinFun.Injective_map_NoDup; auto; intros a b [= H]; exact H|].
      intros x H1 H2. apply in_map_iff in H1, H2. destruct H1 as (a & <- & _), H2 as (b & Hb & _). discriminate.
    - unfold l. rewrite app_length, !map_length. lia.
    - intros b Hb. unfold l in Hb. apply in_app_iff in Hb. destruct Hb as [Hb|Hb]; apply in_map_iff in Hb; destruct Hb as (i & <- & Hi); cbn [Z]; [apply C1; auto|apply C2; auto].
    - intros e He. destruct (C0 He) as [E1 E2]. destruct (A4 _ E1) as (a1 & H1). destruct (D4 _ E2) as (a2 & H2).
      exists (fun i : sum_ord I1 I2 => match i with inl i => a1 i | inr j => a2 j end). eapply X0; [|exact (B12 H1 H2)]. intros x. cbv beta. rewrite Hs. cbv beta iota. unfold restrict. destruct (q x) eqn:Eq; cbn [negb]; [rewrite (S2 a2 x Eq)|rewrite (S1 a1 x Eq)]; ring.
    - intros a Ha. destruct (B0 Ha) as [H1 H2].
      assert (G1 : forall b, In b l1 -> a (inl b : sum_ord I1 I2) = f0).
      { apply (A5 (fun b => a (inl b : sum_ord I1 I2))). eapply X1; [|exact H1]. intros x. unfold restrict. destruct (q x) eqn:Eq; [rewrite Hs, S2 by exact Eq; ring|]. symmetry. now apply S1. }
      assert (G2 : forall b, In b l2 -> a (inr b : sum_ord I1 I2) = f0).
      { apply (D5 (fun b => a (inr b : sum_ord I1 I2))). eapply X2; [|exact H2]. intros x. unfold restrict. destruct (q x) eqn:Eq; cbn [negb]; [symmetry; now apply S2|]. rewrite Hs, S1 by exact Eq. ring. }
      intros b Hb. unfold l in Hb. apply in_app_iff in Hb. destruct Hb as [Hb|Hb]; apply in_map_iff in Hb; destruct Hb as (i & <- & Hi); auto.
  Qed.
End Split.
