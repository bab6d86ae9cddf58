(** Intrinsic pairs of a graded complex: degrees, births are cycles,
    the partition of the basis. *)
From Verif Require Import Base Fields Spec LinAlg Columns ColumnsFacts Matrices SpecMat MatricesFacts Reduction LoopProofs StandardProofs ReadOffProofs.
From Coq Require Import Ring Field.
Set Implicit Arguments.

Lemma exists_or {A} (P : A -> Prop) l : (forall a, In a l -> P a \/ ~ P a) ->
  (exists a, In a l /\ P a) \/ forall a, In a l -> ~ P a.
Proof.
  induction l as [|x l IH]; intros H; [right; intros a []|].
  destruct (H x (or_introl eq_refl)) as [Hx|Hx]; [left; exists x; simpl; auto|].
  destruct IH as [(a & Ha & HP)|Hn]; [intros a Ha; apply H; simpl; auto|left; exists a; simpl; auto|].
  right. intros a [<-|Ha]; auto.
Qed.

Section G.
  Context {K : coeffT} {F C : ordT} (phi : C -> F).
  Add Field KFG : (F_field K).
  Variables (B : list C) (D : C -> vec K C).
  Hypothesis HB : NoDup B.
  Hypothesis Hfin : forall x, vzero (lincomb B x D) \/ exists i, leading phi (lincomb B x D) i.

  Lemma lincomb_nonzero (x : vec K C) r : lincomb B x D r <> f0 -> exists c, In c B /\ x c <> f0 /\ D c r <> f0.
  Proof.
    intros H. destruct (Exists_dec (fun c => x c <> f0 /\ D c r <> f0) B) as [He|He].
    - intros c. destruct (fscalar_dec (x c)), (fscalar_dec (D c r)); tauto.
    - apply Exists_exists in He. destruct He as (c & H1 & H2). eauto.
    - exfalso. apply H. apply lincomb_0. intros c Hc.
      destruct (fscalar_dec (x c)) as [|H1]; auto. destruct (fscalar_dec (D c r)) as [|H2]; auto.
      exfalso. apply He. apply Exists_exists. eauto.
  Qed.

  Variables (g : C -> Z) (e : Z).
  Hypothesis Hg : graded g e B D.

  Definition restrict (n : Z) (x : vec K C) : vec K C := fun b => if (g b =? n)%Z then x b else f0.

  Lemma lincomb_restrict n x r :
    lincomb B (restrict n x) D r = if (g r =? n + e)%Z then lincomb B x D r else f0.
  Proof.
    destruct (Z.eqb_spec (g r) (n + e)) as [E|E].
    - unfold lincomb. apply vsum_ext. intros c Hc. unfold restrict.
      destruct (Z.eqb_spec (g c) n) as [Ec|Ec]; auto.
      destruct (fscalar_dec (D c r)) as [->|Hn]; [ring|]. exfalso. apply Ec. specialize (@Hg c r Hc Hn). lia.
    - apply lincomb_0. intros c Hc. unfold restrict. destruct (Z.eqb_spec (g c) n) as [Ec|Ec]; auto.
      destruct (fscalar_dec (D c r)) as [|Hn]; auto. exfalso. apply E. specialize (@Hg c r Hc Hn). lia.
  Qed.

  (** pairs are homogeneous *)
  Lemma pair_grade i j : is_pair phi B D i j -> g i = (g j + e)%Z.
  Proof.
    intros (H1 & (x & Hx & Hlead) & H3). destruct (Z.eq_dec (g i) (g j + e)) as [|Hne]; auto. exfalso.
    set (y := fun b => fsub (x b) (restrict (g i - e) x b)).
    assert (Ey : forall r, lincomb B y D r = if (g r =? g i)%Z then f0 else lincomb B x D r).
    { intros r. transitivity (fsub (lincomb B x D r) (lincomb B (restrict (g i - e) x) D r)).
      - unfold y. transitivity (lincomb B (fun b => fadd (x b) (fmul (fopp f1) (restrict (g i - e) x b))) D r).
        + apply lincomb_ext; auto. intros b _. ring.
        + rewrite lincomb_add. rewrite lincomb_scale. ring.
      - rewrite lincomb_restrict. replace (g i - e + e)%Z with (g i) by lia.
        destruct (g r =? g i)%Z; ring. }
    assert (Hy : ends_at B y j).
    { destruct Hx as (B1 & B2 & E & Hj & Hz). exists B1, B2. split; auto. split.
      - unfold y, restrict. destruct (Z.eqb_spec (g j) (g i - e)); [lia|].
        replace (fsub (x j) f0) with (x j) by ring. auto.
      - intros b Hb. unfold y, restrict. rewrite Hz by auto. destruct (g b =? g i - e)%Z; ring. }
    destruct (Hfin y) as [Hz|(i' & Hl')]; [eapply H1; eauto|].
    pose proof (H3 y i' Hy Hl') as Hle. destruct Hl' as [Hn _]. rewrite Ey in Hn.
    destruct (Z.eqb_spec (g i') (g i)) as [E|E]; [congruence|].
    destruct Hle as [Hlt| ->]; [|congruence]. apply Hn. apply Hlead. auto.
  Qed.

  Hypothesis HO : graded_order phi g B.
  Hypothesis Hcx : complex B D.

  Lemma complex_square x : vzero (lincomb B (lincomb B x D) D).
  Proof.
    intros r. rewrite <- lincomb_assoc. apply lincomb_0. intros b Hb. right.
    destruct Hcx as [_ H]. apply (H b Hb).
  Qed.

  (** a cycle whose leading row is [i] makes [i] positive *)
  Lemma cycle_positive (z : vec K C) i : In i B -> leading phi z i -> vzero (lincomb B z D) -> is_positive B D i.
  Proof.
    intros Hi [Hzi Hlead] Hz. exists (restrict (g i) z). split.
    - apply in_split in Hi. destruct Hi as (B1 & B2 & E). exists B1, B2. split; auto. split.
      + unfold restrict. now rewrite Z.eqb_refl.
      + intros b Hb. unfold restrict. destruct (Z.eqb_spec (g b) (g i)) as [Eg|]; auto.
        apply Hlead. apply HO; auto. apply before_split. eauto.
    - intros r. rewrite lincomb_restrict. destruct (g r =? g i + e)%Z; auto.
  Qed.

  Lemma birth_positive i j : In j B -> is_pair phi B D i j -> In i B /\ is_positive B D i.
  Proof.
    intros Hj (_ & (x & Hx & Hlead) & _).
    assert (Hi : In i B).
    { destruct Hlead as [Hn _]. apply lincomb_nonzero in Hn. destruct Hn as (c & Hc & _ & Hn).
      destruct Hcx as [H _]. eapply H; eauto. }
    split; auto. eapply cycle_positive; eauto. apply complex_square.
  Qed.
End G.

Section Part.
  Context {K : coeffT} {F C : ordT} (phi : C -> F).
  Variables (B : list C) (D : C -> vec K C) (V : C -> vec K C).
  Hypothesis HB : NoDup B.
  Hypothesis HV : triangular B V.
  Hypothesis HR : reduced phi B (fun j => lincomb B (V j) D).
  Hypothesis Hfin : forall x, vzero (lincomb B x D) \/ exists i, leading phi (lincomb B x D) i.

  Let dich' : dich phi (fun j => lincomb B (V j) D) B.
  Proof. intros j _. apply Hfin. Qed.

  Lemma pair_birth_unique i i' j : In j B -> is_pair phi B D i j -> is_pair phi B D i' j -> i = i'.
  Proof.
    intros Hj H1 H2. apply (intrinsic_pair HB HV HR dich') in H1, H2; auto. eapply leading_unique; eauto.
  Qed.
  Lemma pair_death_unique i j j' : In j B -> In j' B -> is_pair phi B D i j -> is_pair phi B D i j' -> j = j'.
  Proof.
    intros Hj Hj' H1 H2. apply (intrinsic_pair HB HV HR dich') in H1, H2; auto. eapply HR; eauto.
  Qed.
  Lemma positive_or_death j : In j B -> is_positive B D j \/ exists i, is_pair phi B D i j.
  Proof.
    intros Hj. destruct (dich' j Hj) as [Hz|(i & Hl)].
    - left. apply (intrinsic_positive HB HV HR dich'); auto.
    - right. exists i. apply (intrinsic_pair HB HV HR dich'); auto.
  Qed.
  Lemma positive_not_death i j : is_positive B D j -> ~ is_pair phi B D i j.
  Proof. intros (x & Hx & Hz) (H & _). eapply H; eauto. Qed.
  Lemma birth_dec j : In j B -> (exists k, In k B /\ is_pair phi B D j k) \/ (forall k, In k B -> ~ is_pair phi B D j k).
  Proof.
    intros Hj. destruct (@exists_or _ (fun k => leading phi (lincomb B (V k) D) j) B) as [(k & Hk & Hl)|He].
    - intros k _. destruct (Hfin (V k)) as [Hz|(i & Hl)].
      + right. intros H. eapply leading_not_zero; eauto.
      + destruct (ord_eq_dec i j) as [->|Hn]; auto. right. intros H. apply Hn. eapply leading_unique; eauto.
    - left. exists k. split; auto. apply (intrinsic_pair HB HV HR dich'); auto.
    - right. intros k Hk Hp. apply (He k Hk). apply (intrinsic_pair HB HV HR dich') in Hp; auto.
  Qed.
End Part.
