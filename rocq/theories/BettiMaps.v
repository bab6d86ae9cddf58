(** Persistent Betti numbers under a signed permutation of the cells, and their monotonicity under interleaved filtrations. *)
From Verif Require Import Base Fields FieldsFacts Spec LinAlg SpecPH Graded Persistence BettiUnique.
From Coq Require Import Ring Field Permutation Lia.
Set Implicit Arguments.

(** ** The rank between two times of one filtration is at most the rank between two times of another lying in between *)
Section Interleaved.
  Context {K : coeffT} {F F' C : ordT} (phi : C -> F) (phi' : C -> F') (g : C -> Z) (e : Z) (l : list C) (D : C -> vec K C).
  Add Field KFBm : (F_field K).
  Lemma chain_le (s : F) (s' : F') n (z : vec K C) : (forall c, In c l -> ole (phi c) s -> ole (phi' c) s') -> chain_at phi g l n s z -> chain_at phi' g l n s' z.
  Proof. intros H Hz c Hc. destruct (Hz c Hc) as (H1 & H2 & H3). auto. Qed.
  Lemma interleaved_betti n (s t : F) (s' t' : F') k k' :
    (forall c, In c l -> ole (phi c) s -> ole (phi' c) s') -> (forall c, In c l -> ole (phi' c) t' -> ole (phi c) t) ->
    persistent_betti phi g e l D n s t k -> persistent_betti phi' g e l D n s' t' k' -> k <= k'.
  Proof.
    intros Hs Ht (I & bars & Z & (N1 & C1 & _ & L1) & <-) (J & bars' & Z' & (_ & _ & S2 & _) & <-).
    destruct (Nat.le_gt_cases (length bars) (length bars')) as [|Hgt]; auto. exfalso.
    destruct (@list_choice I (vec K J * vec K C) (fun b p => chain_at phi' g l (n - e) t' (snd p) /\
       forall r, bdry l D (snd p) r = fsub (Z b r) (lincomb bars' (fst p) Z' r)) (fun _ => f0, fun _ => f0) bars) as (f & Hf).
    { intros b Hb. destruct (C1 b Hb) as [Hc Hz]. destruct (S2 (Z b)) as (a & w & H1 & H2); [split; auto; eapply chain_le; eauto|]. exists (a, w). auto. }
    destruct (@kernel_nontrivial K J I bars' (fun b' b => fst (f b) b') bars N1 Hgt) as (x & (u & Hu & Hxu) & Hx).
    apply Hxu. apply (L1 x); auto. exists (lincomb bars x (fun b => snd (f b))). split.
    - apply chain_comb. intros b Hb _ c Hc. destruct (Hf b Hb) as [Hch _]. destruct (Hch c Hc) as (H1 & H2 & H3). auto.
    - intros r. unfold bdry. rewrite <- lincomb_assoc.
      transitivity (lincomb bars x (fun b r => fsub (Z b r) (lincomb bars' (fst (f b)) Z' r)) r).
      { apply lincomb_ext; auto. intros b Hb. apply Hf. auto. }
      transitivity (fsub (lincomb bars x Z r) (lincomb bars x (fun b => lincomb bars' (fst (f b)) Z') r)).
      { unfold lincomb at 1 3 4. 
        transitivity (vsum bars (fun b => fadd (fmul (x b) (Z b r)) (fmul (fopp f1) (fmul (x b) (lincomb bars' (fst (f b)) Z' r))))).
        - apply vsum_ext. intros; ring.
        - rewrite vsum_add, vsum_mul_l. fold (lincomb bars x Z r). generalize (vsum bars (fun b : I => fmul (x b) (lincomb bars' (fst (f b)) Z' r))) (lincomb bars x Z r). intros; ring. }
      rewrite lincomb_assoc. rewrite (@lincomb_0 K _ _ bars' _ Z' r); [ring|].
      intros b Hb. left. rewrite <- (Hx b Hb). unfold lincomb. apply vsum_ext. intros; ring.
  Qed.
End Interleaved.

(** ** Signed permutations *)
Section Signed.
  Context {K : coeffT} {F C : ordT} (g : C -> Z) (e : Z) (l : list C) (D : C -> vec K C) (mv : C -> C) (sn : C -> option K).
  Hypothesis Hnd : NoDup l.
  Hypothesis Hclosed : forall c r, In c l -> D c r <> f0 -> In r l.
  Hypothesis Hin : forall c, In c l -> In (mv c) l.
  Hypothesis Hinv : forall c, In c l -> mv (mv c) = c.
  Hypothesis Hsn : forall c, In c l -> fmul (sn c) (sn c) = f1.
  Hypothesis Hsm : forall c, In c l -> sn (mv c) = sn c.
  Hypothesis Hg : forall c, In c l -> g (mv c) = g c.
  Hypothesis HD : forall c r, In c l -> In r l -> D (mv c) (mv r) = fmul (fmul (sn c) (sn r)) (D c r).

  Add Field KFBm2 : (F_field K).
  Definition moved (z : vec K C) : vec K C := fun c => if in_dec (@ord_eq_dec C) c l then fmul (sn c) (z (mv c)) else f0.
  Lemma moved_moved z c : In c l -> moved (moved z) c = z c.
  Proof.
    intros Hc. unfold moved. destruct (in_dec _ c l); [|contradiction]. destruct (in_dec _ (mv c) l) as [|Hno]; [|exfalso; auto]. rewrite Hinv, Hsm by auto.
    transitivity (fmul (fmul (sn c) (sn c)) (z c)); [ring|]. rewrite Hsn by auto. ring.
  Qed.
  Lemma mv_perm : Permutation (map mv l) l.
  Proof.
    assert (Hn : NoDup (map mv l)) by (apply nodup_map_intro; auto; intros a b Ha Hb E; rewrite <- (Hinv a Ha), E; auto).
    apply NoDup_Permutation; auto. intros c. rewrite in_map_iff. split; [intros (x & <- & Hx); auto|]. intros Hc. exists (mv c). auto.
  Qed.
  Lemma bdry_moved z r : bdry l D (moved z) r = moved (bdry l D z) r.
  Proof.
    unfold moved at 2. destruct (in_dec _ r l) as [Hr|Hr].
    - unfold bdry, lincomb. rewrite <- vsum_mul_l. erewrite <- (vsum_perm _ mv_perm). rewrite vsum_map. apply vsum_ext. intros c Hc.
      unfold moved. destruct (in_dec _ (mv c) l) as [_|Hno]; [|exfalso; auto]. rewrite Hinv, Hsm by auto.
      pose proof (HD c (mv r) Hc (Hin r Hr)) as E. rewrite Hinv, Hsm in E by auto. rewrite E.
      transitivity (fmul (fmul (sn c) (sn c)) (fmul (z c) (fmul (sn r) (D c (mv r))))); [ring|]. rewrite Hsn by auto. ring.
    - unfold bdry. apply lincomb_0. intros c Hc. right. destruct (fscalar_dec (D c r)) as [|Hn]; auto. exfalso. eauto.
  Qed.
  Lemma moved_sub (z w : vec K C) r : moved (fun r => fsub (z r) (w r)) r = fsub (moved z r) (moved w r).
  Proof. unfold moved. destruct (in_dec (@ord_eq_dec C) r l); ring. Qed.
  Lemma moved_out z r : ~ In r l -> moved z r = f0.
  Proof. intros H. unfold moved. destruct (in_dec (@ord_eq_dec C) r l); [contradiction|reflexivity]. Qed.
  Lemma moved_ext z w r : (forall c, z c = w c) -> moved z r = moved w r.
  Proof. intros H. unfold moved. now rewrite H. Qed.
  Lemma moved_comb {I : Type} (bars : list I) a (Z : I -> vec K C) r : moved (lincomb bars a Z) r = lincomb bars a (fun b => moved (Z b)) r.
  Proof.
    unfold moved. destruct (in_dec _ r l) as [Hr|Hr].
    - unfold lincomb. rewrite <- vsum_mul_l. apply vsum_ext. intros b _. cbv beta. destruct (in_dec (@ord_eq_dec C) r l) as [|]; [ring|contradiction].
    - symmetry. apply vsum_0. intros b _. transitivity (fmul (a b) (f0 : option K)); [f_equal|ring]. cbv beta. destruct (in_dec (@ord_eq_dec C) r l); [contradiction|reflexivity].
  Qed.
  Variables (phi phi' : C -> F).
  Lemma moved_chain n t (z : vec K C) : (forall c, In c l -> phi' (mv c) = phi c) -> chain_at phi g l n t z -> chain_at phi' g l n t (moved z).
  Proof.
    intros Hphi Hz c Hc. unfold moved in Hc. destruct (in_dec _ c l) as [Hl|]; [|congruence]. assert (Hn : z (mv c) <> f0) by (intros E; apply Hc; rewrite E; ring).
    destruct (Hz _ Hn) as (H1 & H2 & H3). split; auto. rewrite Hg in H2 by auto. split; auto. rewrite <- Hphi in H3 by auto. now rewrite Hinv in H3.
  Qed.
  Lemma moved_cycle n t z : (forall c, In c l -> phi' (mv c) = phi c) -> cycle_at phi g l D n t z -> cycle_at phi' g l D n t (moved z).
  Proof.
    intros Hphi [H1 H2]. split; [now apply moved_chain|]. intros r. rewrite bdry_moved. unfold moved. destruct (in_dec _ r l); auto. rewrite (H2 (mv r)). ring.
  Qed.
  Lemma moved_boundary n t z : (forall c, In c l -> phi' (mv c) = phi c) -> boundary_at phi g e l D n t z -> boundary_at phi' g e l D n t (moved z).
  Proof.
    intros Hphi (w & H1 & H2). exists (moved w). split; [now apply moved_chain|]. intros r. rewrite bdry_moved. unfold moved. destruct (in_dec _ r l); auto. now rewrite H2.
  Qed.
End Signed.

Section Ext.
  Context {K : coeffT} {F C : ordT} (phi : C -> F) (g : C -> Z) (e : Z) (l : list C) (D : C -> vec K C).
  Lemma boundary_ext n t z z' : (forall r, z r = z' r) -> boundary_at phi g e l D n t z -> boundary_at phi g e l D n t z'.
  Proof. intros H (w & H1 & H2). exists w. split; auto. intros r. now rewrite <- H. Qed.
End Ext.

Section Final.
Context {K : coeffT}.
Add Field KFBm3 : (F_field K).
Lemma signed_betti {F C : ordT} (g : C -> Z) (e : Z) (l : list C) (D : C -> vec K C) (mv : C -> C) (sn : C -> option K) (phi phi' : C -> F) :
  NoDup l -> (forall c r, In c l -> D c r <> f0 -> In r l) -> (forall c, In c l -> In (mv c) l) -> (forall c, In c l -> mv (mv c) = c) ->
  (forall c, In c l -> fmul (sn c) (sn c) = f1) -> (forall c, In c l -> sn (mv c) = sn c) -> (forall c, In c l -> g (mv c) = g c) ->
  (forall c r, In c l -> In r l -> D (mv c) (mv r) = fmul (fmul (sn c) (sn r)) (D c r)) -> (forall c, In c l -> phi' (mv c) = phi c) ->
  forall n s t k, persistent_betti phi g e l D n s t k -> persistent_betti phi' g e l D n s t k.
Proof.
  intros Hnd Hcl Hin Hinv Hsn Hsm Hg HD Hphi n s t k (I & bars & Z & (N1 & C1 & S1 & L1) & Hlen).
  assert (Hphi2 : forall c, In c l -> phi (mv c) = phi' c) by (intros c Hc; rewrite <- Hphi by auto; now rewrite Hinv).
  assert (Hmm : forall z : vec K C, (forall c, ~ In c l -> z c = f0) -> forall c, moved l mv sn (moved l mv sn z) c = z c).
  { intros z Hz c. destruct (in_dec (@ord_eq_dec C) c l) as [Hc|Hc]; [now apply moved_moved|]. rewrite Hz by auto. unfold moved at 1. destruct (in_dec _ c l); [contradiction|reflexivity]. }
  exists I, bars, (fun b => moved l mv sn (Z b)). split; auto. split; auto. split; [|split].
  - intros b Hb. eapply moved_cycle; eauto.
  - intros z Hz. destruct (S1 (moved l mv sn z)) as (a & Ha); [eapply moved_cycle; eauto|]. exists a.
    eapply boundary_ext; [|eapply (@moved_boundary K F C); eauto].
    intros r. cbv beta. rewrite moved_sub, moved_comb, Hmm; auto.
    intros c Hc. destruct (fscalar_dec (z c)) as [|Hn]; auto. exfalso. apply Hc. apply (proj1 Hz c Hn).
  - intros a Ha. apply L1. eapply boundary_ext; [|eapply (@moved_boundary K F C) with (phi := phi'); eauto].
    intros r. cbv beta. transitivity (moved l mv sn (moved l mv sn (lincomb bars a Z)) r).
    + apply moved_ext. intros c. symmetry. apply moved_comb.
    + apply Hmm. intros c Hc. apply lincomb_0. intros b Hb. right. destruct (fscalar_dec (Z b c)) as [|Hn]; auto. exfalso. apply Hc. apply (proj1 (C1 b Hb) c Hn).
Qed.
End Final.
