(** Dropping positive columns does not change the pairs of the others. *)
From Verif Require Import Base Fields Spec LinAlg Columns ColumnsFacts Matrices SpecMat MatricesFacts Reduction ReadOffProofs.
From Coq Require Import Ring Field.
Set Implicit Arguments.

Section Drop.
  Context {K : coeffT} {F C R : ordT} (phi : R -> F).
  Add Field KFInv : (F_field K).

  Lemma ends_at_before (B : list C) (x : vec K C) j : NoDup B ->
    (ends_at B x j <-> In j B /\ x j <> f0 /\ forall b, before B j b -> x b = f0).
  Proof.
    intros HB. split.
    - intros (B1 & B2 & -> & Hj & Hz). split; [apply in_app_iff; simpl; auto|]. split; auto. intros b Hb. apply before_split in Hb.
      destruct Hb as (A1 & A2 & E & Hb). apply nodup_split_unique in E; auto. destruct E as [_ <-]. auto.
    - intros (Hj & Hx & Hz). apply in_split in Hj. destruct Hj as (B1 & B2 & E). exists B1, B2. split; auto. split; auto.
      intros b Hb. apply Hz. apply before_split. eauto.
  Qed.

  Variables (B N : list C) (D : C -> vec K R).
  Hypothesis HB : NoDup B.
  Hypothesis HN : NoDup N.
  Hypothesis Hincl : forall c, In c N -> In c B.
  Hypothesis Hbef : forall x y, before N x y -> before B x y.
  Hypothesis Hpos : forall b, In b B -> ~ In b N -> is_positive B D b.

  Lemma before_sub x y : In x N -> In y N -> before B x y -> before N x y.
  Proof.
    intros Hx Hy H. destruct (@before_total C N x y Hx Hy) as [->|[|H']]; auto; exfalso.
    - exact (before_neq HB H eq_refl).
    - apply Hbef in H'. exact (before_asym HB H H').
  Qed.

  (** every chain ending at a kept column has the boundary of a chain of kept columns ending there *)
  Lemma eliminate j x : In j N -> ends_at B x j -> exists x', ends_at B x' j /\
    (forall r, lincomb B x' D r = lincomb B x D r) /\ forall b, In b B -> ~ In b N -> x' b = f0.
  Proof.
    intros Hj Hx. 
    assert (H : forall T P, B = P ++ T -> exists x', ends_at B x' j /\
      (forall r, lincomb B x' D r = lincomb B x D r) /\ forall b, In b T -> ~ In b N -> x' b = f0).
    { induction T as [|b T IH]; intros P E; [exists x; split; [auto|split; [auto|intros b []]]|].
      destruct (IH (P ++ [b])) as (x' & Hx' & Hl & Hz); [rewrite <- app_assoc; exact E|].
      assert (HbB : In b B) by (rewrite E; apply in_app_iff; simpl; auto).
      destruct (in_dec ord_eq_dec b N) as [HbN|HbN].
      { exists x'. split; auto. split; auto. intros b' [<-|Hb'] Hn; [contradiction|auto]. }
      destruct (fscalar_dec (x' b)) as [H0|H0].
      { exists x'. split; auto. split; auto. intros b' [<-|Hb'] Hn; auto. }
      destruct (Hpos b HbB HbN) as (y & Hy & Hyz).
      apply ends_at_before in Hy; auto. destruct Hy as (_ & Hyb & Hy).
      apply ends_at_before in Hx'; auto. destruct Hx' as (HjB & Hxj & Hx').
      assert (Hbj : before B b j).
      { destruct (@before_total C B b j HbB HjB) as [->|[|H']]; auto; [contradiction|]. exfalso. apply H0. apply Hx'. exact H'. }
      exists (fun c => fadd (x' c) (fmul (fopp (fdiv (x' b) (y b))) (y c))). split; [|split].
      - apply ends_at_before; auto. split; auto. split.
        + rewrite (Hy j Hbj). replace (fadd (x' j) (fmul (fopp (fdiv (x' b) (y b))) f0)) with (x' j) by ring. exact Hxj.
        + intros c Hc. rewrite (Hx' c Hc), (Hy c). ring. eapply before_trans; eauto.
      - intros r. rewrite lincomb_add, lincomb_scale, (Hyz r), Hl. ring.
      - intros c [<-|Hc] Hn.
        + field. exact Hyb.
        + rewrite (Hz c Hc Hn), (Hy c). ring. apply before_split. eauto. }
    destruct (H B [] eq_refl) as (x' & H1 & H2 & H3). exists x'. auto.
  Qed.

  Lemma lincomb_sub (x : vec K C) r : (forall b, In b B -> ~ In b N -> x b = f0) -> lincomb N x D r = lincomb B x D r.
  Proof.
    intros H. unfold lincomb. assert (E : forall f, (forall b, In b B -> ~ In b N -> f b = (f0 : option K)) -> vsum N f = vsum B f).
    { intros f Hf. transitivity (vsum (filter (fun c => if in_dec ord_eq_dec c N then true else false) B) f).
      - apply vsum_perm. apply NoDup_Permutation; auto; [now apply NoDup_filter|]. intros c. rewrite filter_In.
        destruct (in_dec ord_eq_dec c N) as [Hc|Hc]; [split; auto|split; [tauto|intros [_ ?]; discriminate]].
      - rewrite vsum_filter. apply vsum_ext. intros c Hc. destruct (in_dec ord_eq_dec c N); auto. symmetry. auto. }
    apply E. intros b Hb Hn. rewrite H by auto. ring.
  Qed.

  Lemma up j x : In j N -> ends_at N x j -> exists x', ends_at B x' j /\ forall r, lincomb B x' D r = lincomb N x D r.
  Proof.
    intros Hj Hx. exists (fun c => if in_dec ord_eq_dec c N then x c else f0). apply ends_at_before in Hx; auto. destruct Hx as (_ & Hxj & Hz). split.
    - apply ends_at_before; auto. split; auto. split; [destruct (in_dec ord_eq_dec j N); tauto|].
      intros b Hb. destruct (in_dec ord_eq_dec b N) as [Hn|]; auto. apply Hz. apply before_sub; auto.
    - intros r. rewrite <- lincomb_sub; [|intros b _ Hn; destruct (in_dec ord_eq_dec b N); tauto].
      apply lincomb_ext; auto. intros b Hb. destruct (in_dec ord_eq_dec b N); tauto.
  Qed.
  Lemma down j x : In j N -> ends_at B x j -> exists x', ends_at N x' j /\ forall r, lincomb N x' D r = lincomb B x D r.
  Proof.
    intros Hj Hx. destruct (eliminate Hj Hx) as (x' & Hx' & Hl & Hz). exists x'. split.
    - apply ends_at_before in Hx'; auto. apply ends_at_before; auto. split; auto. split; [tauto|]. intros b Hb. apply Hx'. auto.
    - intros r. rewrite <- Hl. apply lincomb_sub. exact Hz.
  Qed.

  Theorem pair_drop i j : In j N -> (is_pair phi N D i j <-> is_pair phi B D i j).
  Proof.
    intros Hj. split; intros (P1 & (x & Hx & Hl) & P3); (split; [|split]).
    - intros y Hy Hz. destruct (down Hj Hy) as (y' & Hy' & E). apply (P1 y' Hy'). intros r. now rewrite E.
    - destruct (up Hj Hx) as (x' & Hx' & E). exists x'. split; auto. eapply leading_ext; [|exact Hl]. intros r. symmetry. apply E.
    - intros y i' Hy Hl'. destruct (down Hj Hy) as (y' & Hy' & E). apply (P3 y' i' Hy'). eapply leading_ext; [|exact Hl']. intros r. symmetry. apply E.
    - intros y Hy Hz. destruct (up Hj Hy) as (y' & Hy' & E). apply (P1 y' Hy'). intros r. now rewrite E.
    - destruct (down Hj Hx) as (x' & Hx' & E). exists x'. split; auto. eapply leading_ext; [|exact Hl]. intros r. symmetry. apply E.
    - intros y i' Hy Hl'. destruct (up Hj Hy) as (y' & Hy' & E). apply (P3 y' i' Hy'). eapply leading_ext; [|exact Hl']. intros r. symmetry. apply E.
  Qed.
End Drop.
