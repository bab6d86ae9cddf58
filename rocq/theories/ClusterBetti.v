(** Lemmas for C108: isomorphic filtered complexes, complexes cut off at a time, direct sums of complexes. *)
From Verif Require Import Base Fields FieldsFacts Spec LinAlg SpecPH Graded Persistence BettiUnique BettiMaps BettiFactor SplitBetti.
From Coq Require Import Ring Field Lia FinFun.
Set Implicit Arguments.

Definition unit_vec {K : coeffT} {C : ordT} (c : C) : vec K C := fun r => if oeqb c r then f1 else f0.

Section Iso.
  Context {K : coeffT}.
  Add Field KFci : (F_field K).
  Lemma unit_lincomb {A B : ordT} (L : list A) (V : A -> vec K B) c r : NoDup L -> In c L -> lincomb L (unit_vec c) V r = V c r.
  Proof. intros H1 H2. apply (@lincomb_unit K A B L V c r); auto. Qed.
  Lemma unit_nz {C : ordT} (c r : C) : unit_vec (K:=K) c r <> f0 -> r = c.
  Proof. unfold unit_vec. destruct (oeqb_spec c r) as [->|]; auto. congruence. Qed.
  Lemma unit_same {C : ordT} (c : C) : unit_vec (K:=K) c c = f1.
  Proof. unfold unit_vec. now rewrite oeqb_refl. Qed.
  Lemma unit_other {C : ordT} (c r : C) : r <> c -> unit_vec (K:=K) c r = f0.
  Proof. intros H. unfold unit_vec. destruct (oeqb_spec c r) as [->|]; auto. congruence. Qed.

  Section Map.
    Context {C C' : ordT} (l : list C) (D : C -> vec K C) (l' : list C') (D' : C' -> vec K C') (a : C -> C') (b : C' -> C).
    Hypothesis Hnd : NoDup l.
    Hypothesis Hnd' : NoDup l'.
    Hypothesis Hcl : forall c r, In c l -> D c r <> f0 -> In r l.
    Hypothesis Hcl' : forall c r, In c l' -> D' c r <> f0 -> In r l'.
    Hypothesis Ha : forall c, In c l -> In (a c) l' /\ b (a c) = c.
    Hypothesis Hb : forall c, In c l' -> In (b c) l /\ a (b c) = c.
    Hypothesis HD : forall c r, In c l -> In r l -> D' (a c) (a r) = D c r.
    Lemma iso_chain c r : In c l -> lincomb l' (unit_vec (a c)) D' r = lincomb l (D c) (fun x => unit_vec (a x)) r.
    Proof.
      intros Hc. destruct (Ha _ Hc) as [A1 A2]. rewrite unit_lincomb by auto. destruct (in_dec (@ord_eq_dec C') r l') as [Hr|Hr].
      - destruct (Hb _ Hr) as [B1 B2]. unfold lincomb. rewrite (vsum_single _ (a:=b r)); auto.
        + rewrite B2, unit_same. rewrite <- B2 at 1. rewrite HD by auto. ring.
        + intros x Hx Hn. rewrite unit_other; [ring|]. intros E. apply Hn. rewrite E. symmetry. apply (Ha _ Hx).
      - rewrite lincomb_0.
        + destruct (fscalar_dec (D' (a c) r)) as [|Hn]; auto. exfalso. apply Hr. eapply Hcl'; eauto.
        + intros x Hx. right. apply unit_other. intros E. apply Hr. rewrite E. apply (Ha _ Hx).
    Qed.
    Lemma iso_back c r : In c l -> lincomb l' (unit_vec (a c)) (fun x => unit_vec (b x)) r = unit_vec (K:=K) c r.
    Proof. intros Hc. destruct (Ha _ Hc) as [A1 A2]. rewrite unit_lincomb by auto. now rewrite A2. Qed.
  End Map.

  Section Both.
    Context {F C C' : ordT} (phi : C -> F) (g : C -> Z) (l : list C) (D : C -> vec K C).
    Context (phi' : C' -> F) (g' : C' -> Z) (l' : list C') (D' : C' -> vec K C') (e : Z) (a : C -> C') (b : C' -> C).
    Hypothesis Hnd : NoDup l.
    Hypothesis Hnd' : NoDup l'.
    Hypothesis Hcl : forall c r, In c l -> D c r <> f0 -> In r l.
    Hypothesis Hcl' : forall c r, In c l' -> D' c r <> f0 -> In r l'.
    Hypothesis Ha : forall c, In c l -> In (a c) l' /\ b (a c) = c.
    Hypothesis Hb : forall c, In c l' -> In (b c) l /\ a (b c) = c.
    Hypothesis HD : forall c r, In c l -> In r l -> D' (a c) (a r) = D c r.
    Hypothesis Hg : forall c, In c l -> g' (a c) = g c.
    Hypothesis Hphi : forall c, In c l -> phi' (a c) = phi c.
    Lemma HD' c r : In c l' -> In r l' -> D (b c) (b r) = D' c r.
    Proof. intros Hc Hr. destruct (Hb _ Hc) as [B1 B2]. destruct (Hb _ Hr) as [B3 B4]. rewrite <- HD by auto. now rewrite B2, B4. Qed.
    Lemma iso_betti n s t k k' : ole s t -> persistent_betti phi g e l D n s t k -> persistent_betti phi' g' e l' D' n s t k' -> k = k'.
    Proof.
      intros Hst H1 H2.
      assert (Hg' : forall c, In c l' -> g (b c) = g' c) by (intros c Hc; destruct (Hb _ Hc) as [B1 B2]; rewrite <- Hg by auto; now rewrite B2).
      assert (Hphi' : forall c, In c l' -> phi (b c) = phi' c) by (intros c Hc; destruct (Hb _ Hc) as [B1 B2]; rewrite <- Hphi by auto; now rewrite B2).
      apply Nat.le_antisymm.
      - refine (@factor_betti K F F C C' phi g l D phi' g' l' D' e n s t s t (fun c => unit_vec (a c)) (fun c => unit_vec (b c)) (fun _ _ => f0) _ _ _ _ _ _ _ k k' H1 H2); auto.
        + intros c r Hc. apply (@iso_chain C C' l D l' D' a b); auto.
        + intros c r Hc. apply (@iso_chain C' C l' D' l D b a); auto. apply HD'.
        + intros c r Hc. rewrite (@iso_back C C' l l' a b) by auto. rewrite (@lincomb_0 K C C l (fun _ => f0) D r), (@lincomb_0 K C C l (D c) (fun _ _ => f0) r) by auto. unfold unit_vec. ring.
        + intros c r Hc E Hle Hn. apply unit_nz in Hn. subst r. destruct (Ha _ Hc). rewrite Hg, Hphi by auto. auto.
        + intros c r Hc E Hle Hn. apply unit_nz in Hn. subst r. destruct (Hb _ Hc). rewrite Hg', Hphi' by auto. auto.
        + congruence.
      - refine (@factor_betti K F F C' C phi' g' l' D' phi g l D e n s t s t (fun c => unit_vec (b c)) (fun c => unit_vec (a c)) (fun _ _ => f0) _ _ _ _ _ _ _ k' k H2 H1); auto.
        + intros c r Hc. apply (@iso_chain C' C l' D' l D b a); auto. apply HD'.
        + intros c r Hc. apply (@iso_chain C C' l D l' D' a b); auto.
        + intros c r Hc. rewrite (@iso_back C' C l' l b a) by auto. rewrite (@lincomb_0 K C' C' l' (fun _ => f0) D' r), (@lincomb_0 K C' C' l' (D' c) (fun _ _ => f0) r) by auto. unfold unit_vec. ring.
        + intros c r Hc E Hle Hn. apply unit_nz in Hn. subst r. destruct (Hb _ Hc). rewrite Hg', Hphi' by auto. auto.
        + intros c r Hc E Hle Hn. apply unit_nz in Hn. subst r. destruct (Ha _ Hc). rewrite Hg, Hphi by auto. auto.
        + congruence.
    Qed.
  End Both.
End Iso.

Section CutList.
  Context {F C : ordT} (phi : C -> F) (l : list C) (t : F).
  Definition cut : list C := filter (fun c => oleb (phi c) t) l.
  Lemma in_cut c : In c cut <-> In c l /\ ole (phi c) t.
  Proof. unfold cut. rewrite filter_In. destruct (oleb_spec (phi c) t); intuition discriminate. Qed.
End CutList.
(** Only the cells present at [t] matter for the map from time [s] to time [t] *)
Section Cut.
  Context {K : coeffT} {F C : ordT} (phi : C -> F) (g : C -> Z) (e : Z) (l : list C) (D : C -> vec K C) (t : F).
  Notation cut := (cut phi l t).
  Add Field KFcu : (F_field K).
  Lemma cut_chain n u (w : vec K C) : ole u t -> chain_at phi g l n u w <-> chain_at phi g cut n u w.
  Proof.
    intros Hu. split; intros Hw c Hc; destruct (Hw c Hc) as (H1 & H2 & H3); split; auto.
    - apply in_cut. split; auto. eapply ole_trans; eauto.
    - apply in_cut in H1. tauto.
  Qed.
  Lemma cut_sum n u (w : vec K C) r : ole u t -> chain_at phi g l n u w -> bdry cut D w r = bdry l D w r.
  Proof.
    intros Hu Hw. unfold bdry, lincomb, ClusterBetti.cut. clear e. induction l as [|x L IH] eqn:E; [reflexivity|].
    assert (Hz : forall c, oleb (phi c) t = false -> w c = f0).
    { intros c Hc. destruct (fscalar_dec (w c)) as [|Hn]; auto. exfalso. destruct (Hw c Hn) as (_ & _ & H3). apply (ole_trans H3) in Hu. destruct (oleb_spec (phi c) t) as [Hx|Hx]; [discriminate|]. exact (Hx Hu). }
    clear IH E Hw. generalize (x :: L). intros M. induction M as [|y M IH]; [reflexivity|]. cbn [filter]. destruct (oleb (phi y) t) eqn:Ey; cbn [vsum]; rewrite IH; auto. rewrite (Hz y Ey). ring.
  Qed.
  Lemma cut_cycle n u w : ole u t -> cycle_at phi g l D n u w <-> cycle_at phi g cut D n u w.
  Proof.
    intros Hu. unfold cycle_at. split; intros [H1 H2].
    - split; [now apply cut_chain|]. intros r. rewrite (@cut_sum n u); auto.
    - apply cut_chain in H1; auto. split; auto. intros r. rewrite <- (@cut_sum n u w r Hu H1). auto.
  Qed.
  Lemma cut_boundary n w : boundary_at phi g e l D n t w <-> boundary_at phi g e cut D n t w.
  Proof.
    assert (Ht : ole t t) by apply ole_refl. split; intros (v & H1 & H2); exists v.
    - split; [now apply cut_chain|]. intros r. rewrite <- H2. eapply cut_sum; eauto.
    - apply cut_chain in H1; auto. split; auto. intros r. rewrite <- H2. symmetry. eapply cut_sum; eauto.
  Qed.
  Lemma cut_betti n s k : ole s t -> persistent_betti phi g e l D n s t k <-> persistent_betti phi g e cut D n s t k.
  Proof.
    intros Hst. unfold persistent_betti, persistent_basis. split; intros (I & bars & Z & (N & H1 & H2 & H3) & Hk); exists I, bars, Z; split; auto; split; auto; split; [|split| |split].
    - intros b Hb. apply cut_cycle; auto.
    - intros w Hw. apply cut_cycle in Hw; auto. destruct (H2 w Hw) as (x & Hx). exists x. now apply cut_boundary.
    - intros x Hx. apply H3. now apply cut_boundary.
    - intros b Hb. apply cut_cycle; auto.
    - intros w Hw. apply cut_cycle in Hw; auto. destruct (H2 w Hw) as (x & Hx). exists x. now apply cut_boundary.
    - intros x Hx. apply H3. now apply cut_boundary.
  Qed.
End Cut.

Section SumList.
  Context {C1 C2 : ordT} (l1 : list C1) (l2 : list C2).
  Notation C := (sum_ord C1 C2).
  Definition sl : list C := map inl l1 ++ map inr l2.
  Lemma in_sl_l c : In (inl c : C) sl <-> In c l1.
  Proof.
    unfold sl. rewrite in_app_iff, !in_map_iff. split; [|intros H; left; eauto]. intros [(x & [= <-] & Hx)|(x & E & _)]; [auto|discriminate].
  Qed.
  Lemma in_sl_r c : In (inr c : C) sl <-> In c l2.
  Proof.
    unfold sl. rewrite in_app_iff, !in_map_iff. split; [|intros H; right; eauto]. intros [(x & E & _)|(x & [= <-] & Hx)]; [discriminate|auto].
  Qed.
  Lemma sl_nodup : NoDup l1 -> NoDup l2 -> NoDup sl.
  Proof.
    intros H1 H2. unfold sl. apply nodup_app_intro; [apply FinFun.Injective_map_NoDup; auto; intros a b [= H]; exact H|apply FinFun.Injective_map_NoDup; auto; intros a b [= H]; exact H|].
    intros x X1 X2. apply in_map_iff in X1, X2. destruct X1 as (a & <- & _), X2 as (b & Hb & _). discriminate.
  Qed.
End SumList.
(** ** Direct sums *)
Section Sum.
  Context {K : coeffT} {F C1 C2 : ordT} (phi1 : C1 -> F) (g1 : C1 -> Z) (l1 : list C1) (D1 : C1 -> vec K C1).
  Context (phi2 : C2 -> F) (g2 : C2 -> Z) (l2 : list C2) (D2 : C2 -> vec K C2) (e : Z).
  Add Field KFcs : (F_field K).
  Notation C := (sum_ord C1 C2).
  Definition sphi (c : C) : F := match c with inl c => phi1 c | inr c => phi2 c end.
  Definition sg (c : C) : Z := match c with inl c => g1 c | inr c => g2 c end.
  Notation sl := (sl l1 l2).
  Definition sD (c r : C) : option K := match c, r with inl c, inl r => D1 c r | inr c, inr r => D2 c r | _, _ => f0 end.
  Definition lft (w : vec K C) : vec K C1 := fun c => w (inl c : C).
  Definition rgt (w : vec K C) : vec K C2 := fun c => w (inr c : C).
  Lemma s_sum (w : vec K C) (V : C -> option K) : vsum sl (fun c => fmul (w c) (V c)) = fadd (vsum l1 (fun c => fmul (lft w c) (V (inl c : C)))) (vsum l2 (fun c => fmul (rgt w c) (V (inr c : C)))).
  Proof.
    unfold ClusterBetti.sl. rewrite vsum_app. f_equal; [exact (vsum_map l1 (inl : C1 -> C) (fun c => fmul (w c) (V c)))|exact (vsum_map l2 (inr : C2 -> C) (fun c => fmul (w c) (V c)))].
  Qed.
  Lemma s_bdry_l w r : bdry sl sD w (inl r : C) = bdry l1 D1 (lft w) r.
  Proof.
    unfold bdry, lincomb. rewrite (s_sum w (fun c => sD c (inl r : C))). cbn [sD]. rewrite (vsum_0 l2); [|intros; ring].
    transitivity (vsum l1 (fun c => fmul (lft w c) (D1 c r))); [|reflexivity]. ring.
  Qed.
  Lemma s_bdry_r w r : bdry sl sD w (inr r : C) = bdry l2 D2 (rgt w) r.
  Proof.
    unfold bdry, lincomb. rewrite (s_sum w (fun c => sD c (inr r : C))). cbn [sD]. rewrite (vsum_0 l1); [|intros; ring].
    transitivity (vsum l2 (fun c => fmul (rgt w c) (D2 c r))); [|reflexivity]. ring.
  Qed.
  Lemma s_chain n u w : chain_at sphi sg sl n u w <-> chain_at phi1 g1 l1 n u (lft w) /\ chain_at phi2 g2 l2 n u (rgt w).
  Proof.
    split.
    - intros H. split; intros c Hc; destruct (H _ Hc) as (H1 & H2 & H3); split; auto; [now apply (in_sl_l l1 l2)|now apply (in_sl_r l1 l2)].
    - intros [H1 H2] [c|c] Hc; [destruct (H1 c Hc) as (X1 & X2 & X3)|destruct (H2 c Hc) as (X1 & X2 & X3)]; split; auto; [now apply in_sl_l|now apply in_sl_r].
  Qed.
  Lemma s_cycle n u w : cycle_at sphi sg sl sD n u w <-> cycle_at phi1 g1 l1 D1 n u (lft w) /\ cycle_at phi2 g2 l2 D2 n u (rgt w).
  Proof.
    unfold cycle_at. rewrite s_chain. split.
    - intros ((H1 & H2) & H3). split; split; auto; intros r; [rewrite <- s_bdry_l|rewrite <- s_bdry_r]; apply H3.
    - intros ((H1 & H2) & (H3 & H4)). split; auto. intros [r|r]; [rewrite s_bdry_l|rewrite s_bdry_r]; auto.
  Qed.
  Lemma s_boundary n u w : boundary_at sphi sg e sl sD n u w <-> boundary_at phi1 g1 e l1 D1 n u (lft w) /\ boundary_at phi2 g2 e l2 D2 n u (rgt w).
  Proof.
    split.
    - intros (v & H1 & H2). apply s_chain in H1. destruct H1 as [H1 H3]. split; [exists (lft v)|exists (rgt v)]; split; auto; intros r; [rewrite <- s_bdry_l|rewrite <- s_bdry_r]; apply H2.
    - intros [(v1 & A1 & A2) (v2 & B1 & B2)]. exists (fun c : C => match c with inl c => v1 c | inr c => v2 c end). split; [now apply s_chain|].
      intros [r|r]; [rewrite s_bdry_l; apply A2|rewrite s_bdry_r; apply B2].
  Qed.
  Lemma sum_betti n s t k1 k2 : persistent_betti phi1 g1 e l1 D1 n s t k1 -> persistent_betti phi2 g2 e l2 D2 n s t k2 -> persistent_betti sphi sg e sl sD n s t (k1 + k2).
  Proof.
    intros (I & b1 & Z1 & (A1 & A2 & A3 & A4) & A5) (J & b2 & Z2 & (B1 & B2 & B3 & B4) & B5).
    set (Z := fun i : sum_ord I J => match i with inl i => (fun c : C => match c with inl c => Z1 i c | inr _ => f0 end) | inr j => (fun c : C => match c with inl _ => f0 | inr c => Z2 j c end) end).
    set (bars := map inl b1 ++ map inr b2 : list (sum_ord I J)).
    assert (HZ : forall (a : vec K (sum_ord I J)) V, vsum bars (fun b => fmul (a b) (V b)) = fadd (vsum b1 (fun b => fmul (a (inl b : sum_ord I J)) (V (inl b : sum_ord I J)))) (vsum b2 (fun b => fmul (a (inr b : sum_ord I J)) (V (inr b : sum_ord I J))))).
    { intros a V. unfold bars. rewrite vsum_app. f_equal; [exact (vsum_map b1 (inl : I -> sum_ord I J) (fun b => fmul (a b) (V b)))|exact (vsum_map b2 (inr : J -> sum_ord I J) (fun b => fmul (a b) (V b)))]. }
    assert (HL : forall (a : vec K (sum_ord I J)) c, lincomb bars a Z (inl c : C) = lincomb b1 (fun i => a (inl i : sum_ord I J)) Z1 c).
    { intros a c. unfold lincomb. rewrite (HZ a (fun b => Z b (inl c : C))). cbn [Z]. rewrite (vsum_0 b2); [|intros; ring].
      transitivity (vsum b1 (fun b => fmul (a (inl b : sum_ord I J)) (Z1 b c))); [|reflexivity]. ring. }
    assert (HR : forall (a : vec K (sum_ord I J)) c, lincomb bars a Z (inr c : C) = lincomb b2 (fun i => a (inr i : sum_ord I J)) Z2 c).
    { intros a c. unfold lincomb. rewrite (HZ a (fun b => Z b (inr c : C))). cbn [Z]. rewrite (vsum_0 b1); [|intros; ring].
      transitivity (vsum b2 (fun b => fmul (a (inr b : sum_ord I J)) (Z2 b c))); [|reflexivity]. ring. }
    exists (sum_ord I J), bars, Z. split; [split; [|split; [|split]]|].
    - unfold bars. apply nodup_app_intro; [apply FinFun.Injective_map_NoDup; auto; intros a b [= H]; exact H|apply FinFun.Injective_map_NoDup; auto; intros a b [= H]; exact H|].
      intros x X1 X2. apply in_map_iff in X1, X2. destruct X1 as (a & <- & _), X2 as (b & Hb & _). discriminate.
    - intros b Hb. apply s_cycle. unfold bars in Hb. apply in_app_iff in Hb. destruct Hb as [Hb|Hb]; apply in_map_iff in Hb; destruct Hb as (i & <- & Hi); split.
      + apply (A2 i Hi).
      + split; [intros c Hc; exfalso; apply Hc; reflexivity|]. intros r. apply lincomb_0. intros x _. left. reflexivity.
      + split; [intros c Hc; exfalso; apply Hc; reflexivity|]. intros r. apply lincomb_0. intros x _. left. reflexivity.
      + apply (B2 i Hi).
    - intros w Hw. apply s_cycle in Hw. destruct Hw as [W1 W2]. destruct (A3 _ W1) as (x1 & X1). destruct (B3 _ W2) as (x2 & X2).
      exists (fun i : sum_ord I J => match i with inl i => x1 i | inr j => x2 j end). apply s_boundary. split.
      + eapply boundary_ext; [|exact X1]. intros r. cbv beta. unfold lft. now rewrite HL.
      + eapply boundary_ext; [|exact X2]. intros r. cbv beta. unfold rgt. now rewrite HR.
    - intros a Ha. apply s_boundary in Ha. destruct Ha as [H1 H2].
      assert (G1 : forall i, In i b1 -> a (inl i : sum_ord I J) = f0).
      { apply (A4 (fun i => a (inl i : sum_ord I J))). eapply boundary_ext; [|exact H1]. intros r. unfold lft. apply HL. }
      assert (G2 : forall i, In i b2 -> a (inr i : sum_ord I J) = f0).
      { apply (B4 (fun i => a (inr i : sum_ord I J))). eapply boundary_ext; [|exact H2]. intros r. unfold rgt. apply HR. }
      intros b Hb. unfold bars in Hb. apply in_app_iff in Hb. destruct Hb as [Hb|Hb]; apply in_map_iff in Hb; destruct Hb as (i & <- & Hi); auto.
    - unfold bars. rewrite app_length, !map_length. lia.
  Qed.
End Sum.
