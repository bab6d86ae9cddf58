(** If the homology of one filtered complex between two times factors through that of another, its persistent Betti number is not larger. *)
From Verif Require Import Base Fields FieldsFacts Spec LinAlg SpecPH Graded Persistence BettiUnique BettiMaps.
From Coq Require Import Ring Field Lia.
Set Implicit Arguments.

Section Factor.
  Context {K : coeffT} {F F' C C' : ordT} (phi : C -> F) (g : C -> Z) (l : list C) (D : C -> vec K C).
  Context (phi' : C' -> F') (g' : C' -> Z) (l' : list C') (D' : C' -> vec K C') (e n : Z) (s t : F) (s' t' : F').
  (** chain maps [M], [G] and a homotopy [H] from their composite to the identity, as matrices *)
  Variables (M : C -> vec K C') (G : C' -> vec K C) (H : C -> vec K C).
  Hypothesis Hnd : NoDup l.
  Hypothesis HM : forall c r, In c l -> lincomb l' (M c) D' r = lincomb l (D c) M r.
  Hypothesis HG : forall c r, In c l' -> lincomb l (G c) D r = lincomb l' (D' c) G r.
  Hypothesis HH : forall c r, In c l -> fsub (lincomb l' (M c) G r) (if oeqb c r then f1 else f0) = fadd (lincomb l (H c) D r) (lincomb l (D c) H r).
  Hypothesis HMt : forall c r, In c l -> g c = n -> ole (phi c) s -> M c r <> f0 -> In r l' /\ g' r = n /\ ole (phi' r) s'.
  Hypothesis HGt : forall c r, In c l' -> g' c = (n - e)%Z -> ole (phi' c) t' -> G c r <> f0 -> In r l /\ g r = (n - e)%Z /\ ole (phi r) t.
  Hypothesis HHt : forall c r, In c l -> g c = n -> ole (phi c) s -> H c r <> f0 -> In r l /\ g r = (n - e)%Z /\ ole (phi r) t.
  Add Field KFbf : (F_field K).

  Lemma lincomb_sub {A R : ordT} (B : list A) (x y : vec K A) (V : A -> vec K R) r :
    lincomb B (fun b => fsub (x b) (y b)) V r = fsub (lincomb B x V r) (lincomb B y V r).
  Proof.
    transitivity (fadd (lincomb B x V r) (fmul (fopp f1) (lincomb B y V r))); [|ring].
    rewrite <- lincomb_scale, <- lincomb_add. apply lincomb_ext; auto. intros; ring.
  Qed.
  Lemma lincomb_add_r {A R : ordT} (B : list A) (x : vec K A) (V W : A -> vec K R) r :
    lincomb B x (fun b r => fadd (V b r) (W b r)) r = fadd (lincomb B x V r) (lincomb B x W r).
  Proof. unfold lincomb. rewrite <- vsum_add. apply vsum_ext. intros; ring. Qed.
  Lemma lincomb_sub_r {A R : ordT} (B : list A) (x : vec K A) (V W : A -> vec K R) r :
    lincomb B x (fun b r => fsub (V b r) (W b r)) r = fsub (lincomb B x V r) (lincomb B x W r).
  Proof.
    transitivity (fadd (lincomb B x V r) (fmul (fopp f1) (lincomb B x W r))); [|ring]. unfold lincomb. rewrite <- vsum_mul_l, <- vsum_add. apply vsum_ext. intros; ring.
  Qed.
  (** a chain is the combination of its cells *)
  Lemma chain_unit k u (w : vec K C) r : chain_at phi g l k u w -> lincomb l w (fun c r => if oeqb c r then f1 else f0) r = w r.
  Proof.
    intros Hw. unfold lincomb. destruct (in_dec (@ord_eq_dec C) r l) as [Hr|Hr].
    - rewrite (vsum_single _ (a:=r)); auto; [rewrite oeqb_refl; ring|]. intros b _ Hb. assert (E: oeqb b r = false) by (now apply oeqb_neq). rewrite E. ring.
    - rewrite vsum_0; [destruct (fscalar_dec (w r)) as [|Hx]; [congruence|exfalso; apply Hr; apply (Hw r Hx)]|].
      intros b Hb. assert (E: oeqb b r = false) by (apply oeqb_neq; congruence). rewrite E. ring.
  Qed.
  Lemma lincomb_nonzero2 {A B : ordT} (L : list A) (w : vec K A) (V : A -> vec K B) r : lincomb L w V r <> f0 -> exists c, In c L /\ w c <> f0 /\ V c r <> f0.
  Proof.
    unfold lincomb. induction L as [|a L IH]; cbn [vsum]; [congruence|]. intros Hn.
    destruct (fscalar_dec (w a)) as [E|E]; [|destruct (fscalar_dec (V a r)) as [E'|E']; [|exists a; simpl; auto]].
    - destruct IH as (c & Hc & Hx); [intros E0; apply Hn; rewrite E, E0; ring|]. exists c. simpl; auto.
    - destruct IH as (c & Hc & Hx); [intros E0; apply Hn; rewrite E', E0; ring|]. exists c. simpl; auto.
  Qed.
  Lemma image_chain {A B : ordT} {T T' : ordT} (ph : A -> T) (ph' : B -> T') (ga : A -> Z) (gb : B -> Z) la lb (V : A -> vec K B) k k' u u' w :
    (forall c r, In c la -> ga c = k -> ole (ph c) u -> V c r <> f0 -> In r lb /\ gb r = k' /\ ole (ph' r) u') ->
    chain_at ph ga la k u w -> chain_at ph' gb lb k' u' (lincomb la w V).
  Proof.
    intros HV Hw r Hr. apply lincomb_nonzero2 in Hr. destruct Hr as (c & Hc & Hwc & Hn). destruct (Hw c Hwc) as (H1 & H2 & H3). eauto.
  Qed.

  Theorem factor_betti k k' : persistent_betti phi g e l D n s t k -> persistent_betti phi' g' e l' D' n s' t' k' -> k <= k'.
  Proof.
    intros (I & bars & Z & (N1 & C1 & _ & L1) & <-) (J & bars' & Z' & (_ & _ & S2 & _) & <-).
    destruct (Nat.le_gt_cases (length bars) (length bars')) as [|Hgt]; auto. exfalso.
    assert (Hcyc : forall b, In b bars -> cycle_at phi' g' l' D' n s' (lincomb l (Z b) M)).
    { intros b Hb. destruct (C1 b Hb) as [Hc Hz]. split; [eapply image_chain; eauto|]. intros r. unfold bdry. rewrite <- lincomb_assoc.
      transitivity (lincomb l (Z b) (fun j => lincomb l (D j) M) r); [apply lincomb_ext; auto|].
      rewrite lincomb_assoc. apply lincomb_0. intros c _. left. exact (Hz c). }
    destruct (@list_choice I (vec K J * vec K C') (fun b p => chain_at phi' g' l' (n - e) t' (snd p) /\
       forall r, bdry l' D' (snd p) r = fsub (lincomb l (Z b) M r) (lincomb bars' (fst p) Z' r)) (fun _ => f0, fun _ => f0) bars) as (f & Hf).
    { intros b Hb. destruct (S2 _ (Hcyc b Hb)) as (a & w & H1 & H2). exists (a, w). auto. }
    destruct (@kernel_nontrivial K J I bars' (fun b' b => fst (f b) b') bars N1 Hgt) as (x & (u & Hu & Hxu) & Hx).
    apply Hxu. apply (L1 x); auto.
    set (zt := lincomb bars x Z). set (W := lincomb bars x (fun b => snd (f b))).
    assert (HW : chain_at phi' g' l' (n - e) t' W) by (apply chain_comb; intros b Hb _; apply Hf; auto).
    assert (Hzt : chain_at phi g l n s zt) by (apply chain_comb; intros b Hb _; apply C1; auto).
    assert (Hz0 : forall r, lincomb l zt D r = f0).
    { intros r. unfold zt. rewrite <- lincomb_assoc. apply lincomb_0. intros b Hb. right. exact (proj2 (C1 b Hb) r). }
    assert (HbW : forall r, lincomb l' W D' r = lincomb l zt M r).
    { intros r. unfold W, zt. rewrite <- !lincomb_assoc.
      transitivity (lincomb bars x (fun b r => fsub (lincomb l (Z b) M r) (lincomb bars' (fst (f b)) Z' r)) r).
      { apply lincomb_ext; auto. intros b Hb. apply Hf. auto. }
      transitivity (fsub (lincomb bars x (fun b => lincomb l (Z b) M) r) (lincomb bars x (fun b => lincomb bars' (fst (f b)) Z') r)).
      { apply (lincomb_sub_r bars x (fun b => lincomb l (Z b) M) (fun b => lincomb bars' (fst (f b)) Z')). }
      rewrite lincomb_assoc with (B := bars) (V := fun b => fst (f b)). rewrite (@lincomb_0 K _ _ bars' _ Z' r); [ring|].
      intros b Hb. left. rewrite <- (Hx b Hb). unfold lincomb. apply vsum_ext. intros; ring. }
    exists (fun r => fsub (lincomb l' W G r) (lincomb l zt H r)). split.
    - intros r Hr. assert (Hcase : lincomb l' W G r <> f0 \/ lincomb l zt H r <> f0).
      { destruct (fscalar_dec (lincomb l' W G r)) as [E1|]; auto. destruct (fscalar_dec (lincomb l zt H r)) as [E2|]; auto. exfalso. apply Hr. rewrite E1, E2. ring. }
      destruct Hcase as [Hn|Hn]; revert Hn; [eapply image_chain with (2 := HW)|eapply image_chain with (2 := Hzt)]; eauto.
    - intros r. unfold bdry. rewrite lincomb_sub. rewrite <- !lincomb_assoc.
      assert (E1 : lincomb l' W (fun j => lincomb l (G j) D) r = lincomb l zt (fun c => lincomb l' (M c) G) r).
      { transitivity (lincomb l' W (fun j => lincomb l' (D' j) G) r); [apply lincomb_ext; auto|]. rewrite !lincomb_assoc. apply lincomb_ext; auto. }
      rewrite E1. clear E1.
      assert (E2 : lincomb l zt (fun c => lincomb l (D c) H) r = f0) by (rewrite lincomb_assoc; apply lincomb_0; intros c _; left; auto).
      assert (E3 : fsub (lincomb l zt (fun c => lincomb l' (M c) G) r) (zt r) = fadd (lincomb l zt (fun c => lincomb l (H c) D) r) (lincomb l zt (fun c => lincomb l (D c) H) r)).
      { rewrite <- (chain_unit r Hzt). rewrite <- lincomb_add_r, <- lincomb_sub_r. apply lincomb_ext; auto. }
      rewrite E2 in E3. set (p := lincomb l zt (fun c => lincomb l' (M c) G) r) in *. set (q := lincomb l zt (fun c => lincomb l (H c) D) r) in *.
      transitivity (fsub p (fsub p (zt r))); [rewrite E3; ring|ring].
  Qed.
End Factor.
