(** Any family of cycles with the right leading cells, each bounding when its bar dies, is a persistent basis. *)
From Verif Require Import Base Fields Spec LinAlg Columns ColumnsFacts Matrices SpecMat MatricesFacts Reduction LoopProofs StandardProofs ReadOffProofs Graded SpecPH Persistence.
From Coq Require Import Ring Field Ring_theory Permutation Lia.
Set Implicit Arguments.

Section Fam.
  Context {K : coeffT} {F C : ordT} (phi : C -> F).
  Add Field KFFam : (F_field K).
  Variables (g : C -> Z) (e : Z) (l : list C) (D : C -> vec K C) (V : C -> vec K C).
  Hypothesis Hl : NoDup l.
  Hypothesis Hcx : complex l D.
  Hypothesis Hg : graded g e l D.
  Hypothesis HO : graded_order phi g l.
  Hypothesis HV : triangular l V.
  Notation R := (fun j => lincomb l (V j) D).
  Hypothesis HR : reduced phi l R.
  Variables (E : list C) (P : list (C * C)).
  Hypothesis HEn : NoDup E.
  Hypothesis HPn : NoDup P.
  Hypothesis HP : forall i j, In (i, j) P <-> In j l /\ is_pair phi l D i j.
  Hypothesis HE : forall c, In c E <-> is_essential phi l D c.

  Variable Z : C -> vec K C.
  Hypothesis HZ : forall c, In c E \/ (exists j, In (c, j) P) -> leading phi (Z c) c /\ cycle_at phi g l D (g c) (phi c) (Z c).
  Hypothesis HZd : forall i j, In (i, j) P -> boundary_at phi g e l D (g i) (phi j) (Z i).

  Notation Y := (Y g l D V P).
  Let tri := @trichotomy K F C phi l D V Hl Hcx HV HR E P HP HE.
  Let e_death c i := @E_not_death K F C phi l D E P HP HE c i.
  Let e_birth c i := @E_not_birth K F C phi l D E P HP HE c i.
  Let p_both i j k := @P_not_both K F C phi g e l D Hcx Hg HO P HP i j k.
  Let p_birth i j := @P_birth K F C phi g e l D Hcx Hg HO P HP i j.
  Let p_death_u i j j' := @P_death_u K F C phi l D V Hl Hcx HV HR P HP i j j'.
  Let y_chain := @Y_chain K F C phi g e l D V Hl Hcx Hg HO HV HR P HP.
  Let y_death i j := @Y_death K F C phi g e l D V Hl Hcx Hg HO HV HR P HP i j.
  Let al_in := @alive_in F C phi g E P.
  Let de_in := @dead_in F C phi g P.
  Definition M (j : C) : vec K C := if in_dec ord_eq_dec j (map snd P) then Y j else Z j.
  Lemma death_in j : In j (map snd P) <-> exists i, In (i, j) P.
  Proof. rewrite in_map_iff. split; [intros ([i j'] & <- & H); eauto|intros (i & H); exists (i, j); auto]. Qed.
  Lemma M_death i j : In (i, j) P -> M j = Y j.
  Proof. intros H. unfold M. destruct (in_dec _ _ _) as [|Hn]; auto. exfalso. apply Hn. apply death_in. eauto. Qed.
  Lemma M_birth c : In c E \/ (exists j, In (c, j) P) -> M c = Z c.
  Proof.
    intros H. unfold M. destruct (in_dec _ _ _) as [Hd|]; auto. exfalso. apply death_in in Hd. destruct Hd as (i & Hi). destruct H as [H|(j & H)].
    - exact (e_death _ _ H Hi).
    - exact (p_both _ _ _ H Hi).
  Qed.
  Lemma M_chain j : In j l -> chain_at phi g l (g j) (phi j) (M j) /\ leading phi (M j) j.
  Proof.
    intros Hj. destruct (tri j Hj) as [He|[(k & Hk)|(i & Hi)]].
    - rewrite M_birth by auto. destruct (HZ _ (or_introl He)) as [H1 [H2 _]]. auto.
    - rewrite M_birth by eauto. destruct (HZ _ (or_intror (ex_intro _ k Hk))) as [H1 [H2 _]]. auto.
    - rewrite (M_death _ _ Hi). apply y_chain; auto.
  Qed.
  Lemma M_reduced : reduced phi l M.
  Proof.
    intros j k i Hj Hk H1 H2. destruct (M_chain j Hj) as [_ H3], (M_chain k Hk) as [_ H4].
    rewrite (leading_unique H3 H1). apply (leading_unique H2 H4).
  Qed.
  Lemma M_dich (B : list C) : incl B l -> dich phi M B.
  Proof. intros Hi j Hj. right. exists j. apply M_chain. auto. Qed.
  Lemma M_triangular : triangular l M.
  Proof.
    intros j Hj. destruct (M_chain j Hj) as [Hc [H1 H2]]. pose proof (in_split _ _ Hj) as (B1 & B2 & El). exists B1, B2. split; auto. split; auto.
    intros b Hb. destruct (fscalar_dec (M j b)) as [|Hn]; auto. exfalso. apply Hn. apply H2.
    apply HO; [|symmetry; apply Hc; auto]. apply before_split. eauto.
  Qed.
  Lemma M_expand n s z : chain_at phi g l n s z -> exists y, chain_at phi g l n s y /\ forall r, z r = lincomb l y M r.
  Proof.
    intros Hz. destruct (@triangular_solve K C M [] l z) as (y & Hy & _ & _).
    - now rewrite app_nil_r.
    - rewrite app_nil_r. exact M_triangular.
    - assert (Hout : forall B x r, incl B l -> lincomb B x M r <> f0 -> In r l).
      { intros B x r HB Hn. apply lincomb_nonzero in Hn. destruct Hn as (c & Hc & _ & Hn). apply (proj1 (M_chain c (HB c Hc))) in Hn. tauto. }
      exists (fun c => if in_dec ord_eq_dec c l then restrict g n y c else f0).
      assert (Ez : forall r, z r = lincomb l (fun c => if in_dec ord_eq_dec c l then restrict g n y c else f0) M r).
      { intros r. transitivity (lincomb l (restrict g n y) M r).
        2:{ apply lincomb_ext; auto. intros b Hb. destruct (in_dec ord_eq_dec b l); tauto. }
        destruct (in_dec ord_eq_dec r l) as [Hr|Hr].
        - destruct (Z.eq_dec (g r) n) as [Eg|Eg].
          + rewrite <- (Hy r Hr). apply vsum_ext. intros c Hc. unfold restrict. destruct (Z.eqb_spec (g c) n) as [|Hne]; auto.
            destruct (fscalar_dec (M c r)) as [->|Hn]; [ring|]. exfalso. apply (proj1 (M_chain c Hc)) in Hn. destruct Hn as (_ & Hn & _). lia.
          + symmetry. destruct (fscalar_dec (z r)) as [->|Hn]; [|apply Hz in Hn; tauto]. apply lincomb_0. intros c Hc. unfold restrict.
            destruct (Z.eqb_spec (g c) n) as [Ec|Hne]; auto. right.
            destruct (fscalar_dec (M c r)) as [|Hn]; auto. exfalso. apply (proj1 (M_chain c Hc)) in Hn. destruct Hn as (_ & Hn & _). lia.
        - destruct (fscalar_dec (z r)) as [E0|Hn]; [|apply Hz in Hn; tauto]. rewrite E0. symmetry.
          destruct (fscalar_dec (lincomb l (restrict g n y) M r)) as [|Hn]; auto. exfalso. apply Hr. eapply (Hout l); eauto. apply incl_refl. }
      split; [|exact Ez]. set (y' := fun c => if in_dec ord_eq_dec c l then restrict g n y c else f0) in *.
      intros c Hc. assert (Hcl : In c l) by (unfold y' in Hc; destruct (in_dec ord_eq_dec c l); [auto|congruence]).
      assert (Hcg : g c = n).
      { unfold y' in Hc. destruct (in_dec ord_eq_dec c l); [|congruence]. unfold restrict in Hc. destruct (Z.eqb_spec (g c) n); [auto|congruence]. }
      split; auto. split; auto.
      destruct (@reduced_comb K F C C phi M l y' Hl (M_dich (incl_refl l)) M_reduced) as [[_ H0]|(i & k & Hk & Hyk & Hlk & Hli & Hb)].
      + exfalso. destruct (H0 c Hcl) as [|H1]; [auto|]. eapply leading_not_zero; [apply (M_chain c Hcl)|auto].
      + assert (Hle : row_le phi c i) by (apply (Hb c c Hcl Hc); apply (M_chain c Hcl)).
        destruct Hli as [Hni _]. rewrite <- Ez in Hni. apply Hz in Hni. destruct Hni as (_ & _ & Hs).
        eapply ole_trans; [|exact Hs]. destruct Hle as [[H3|[H3 _]]| ->]; [apply olt_le; auto|rewrite H3; apply ole_refl|apply ole_refl].
  Qed.


  Notation MD := (fun j => lincomb l (M j) D).
  Lemma MD_birth c : In c E \/ (exists j, In (c, j) P) -> vzero (lincomb l (M c) D).
  Proof. intros H. rewrite M_birth by auto. destruct (HZ _ H) as [_ [_ H0]]. exact H0. Qed.
  Lemma MD_death i j : In (i, j) P -> leading phi (lincomb l (M j) D) i.
  Proof.
    intros H. rewrite (M_death _ _ H). eapply leading_ext; [|apply (y_chain i); eapply p_birth; exact H].
    intros r. symmetry. apply (y_death _ _ H).
  Qed.
  Lemma MD_lead i j : In j l -> leading phi (lincomb l (M j) D) i -> In (i, j) P.
  Proof.
    intros Hj Hlead. destruct (tri j Hj) as [He|[(k & Hk)|(i' & Hi)]].
    - exfalso. refine (leading_not_zero Hlead (MD_birth _ _)). auto.
    - exfalso. refine (leading_not_zero Hlead (MD_birth _ _)). eauto.
    - rewrite (leading_unique Hlead (MD_death _ _ Hi)). exact Hi.
  Qed.
  Lemma MD_reduced : reduced phi l MD.
  Proof. intros j k i Hj Hk H1 H2. apply MD_lead in H1, H2; auto. exact (p_death_u _ _ _ H1 H2). Qed.

  (** the leading cell of a boundary is the birth of a pair that has died *)
  Lemma boundary_lead n t (v : vec K C) i : boundary_at phi g e l D n t v -> leading phi v i -> exists j, In (i, j) P /\ ole (phi j) t.
  Proof.
    intros (w & Hw & Ew) Hlead. destruct (M_expand Hw) as (y & Hy & Ey).
    assert (Eb : forall r, v r = lincomb l y MD r).
    { intros r. rewrite <- Ew, lincomb_assoc. unfold bdry. apply lincomb_ext; auto. }
    destruct (@reduced_comb K F C C phi MD l y Hl (fun j _ => per_fin phi Hcx (M j)) MD_reduced) as [[H0 _]|(i' & k & Hk & Hyk & Hlk & Hli & _)].
    - exfalso. eapply leading_not_zero; [exact Hlead|]. intros r. rewrite Eb. apply H0.
    - assert (Ei : i' = i) by (eapply leading_unique; [exact Hli|]; eapply leading_ext; [exact Eb|exact Hlead]). subst i'.
      exists k. split; [apply MD_lead; auto|]. apply Hy in Hyk. tauto.
  Qed.

  Theorem family_basis n s t : persistent_basis phi g e l D n s t (alive phi g E P n s t) Z.
  Proof.
    assert (Hal : forall c, In c (alive phi g E P n s t) -> In c E \/ exists j, In (c, j) P).
    { intros c Hc. apply al_in in Hc. destruct Hc as (_ & _ & [Hc|(j & Hc & _)]); eauto. }
    assert (Hinc : incl (alive phi g E P n s t) l) by apply (@alive_incl K F C phi g e l D Hcx Hg HO E P HP HE).
    assert (HN : NoDup (alive phi g E P n s t)) by apply (@alive_nodup K F C phi g l D V Hl Hcx HV HR E P HEn HPn HP HE).
    split; [exact HN|]. split; [|split].
    - intros c Hc. destruct (HZ _ (Hal c Hc)) as [_ [H1 H2]]. apply al_in in Hc. destruct Hc as (<- & Hs & _). split; [eapply chain_mono; eauto|exact H2].
    - intros z [Hz Hbz]. destruct (M_expand Hz) as (y & Hy & Ez). exists y.
      assert (Hy0 : forall j, In j l -> y j <> f0 -> forall i, ~ In (i, j) P).
      { intros j Hj Hyj i Hi.
        assert (Eb : forall r, bdry l D z r = lincomb l y MD r).
        { intros r. rewrite lincomb_assoc. unfold bdry. apply lincomb_ext; auto. }
        destruct (@reduced_comb K F C C phi MD l y Hl (fun j _ => per_fin phi Hcx (M j)) MD_reduced) as [[_ H0]|(i' & k & Hk & Hyk & Hlk & Hli & Hb)].
        - destruct (H0 j Hj) as [|H1]; [auto|]. eapply leading_not_zero; [exact (MD_death _ _ Hi)|exact H1].
        - eapply leading_not_zero; [exact Hli|]. intros r. rewrite <- Eb. apply Hbz. }
      assert (Hd : exists w : C -> vec K C, forall i, In i (map fst (dead phi g P n s t)) -> chain_at phi g l (n - e) t (w i) /\ forall r, bdry l D (w i) r = Z i r).
      { assert (H : forall L : list (C * C), incl L (dead phi g P n s t) -> exists w : C -> vec K C, forall i, In i (map fst L) -> chain_at phi g l (n - e) t (w i) /\ forall r, bdry l D (w i) r = Z i r).
        { induction L as [|[i j] L IH]; intros HL; [exists (fun _ _ => f0); intros i []|].
          destruct IH as (w & Hw); [intros x Hx; apply HL; now right|]. pose proof (HL (i, j) (or_introl eq_refl)) as Hij. apply de_in in Hij. destruct Hij as (Hij & Hgi & _ & Hjt).
          destruct (HZd _ _ Hij) as (wi & Hwi & Ewi). rewrite Hgi in Hwi.
          exists (fun c => if ord_eq_dec c i then wi else w c). intros c Hc. destruct (ord_eq_dec c i) as [->|Hne].
          - split; [eapply chain_mono; eauto|exact Ewi].
          - apply Hw. cbn [map fst] in Hc. destruct Hc; [congruence|auto]. }
        apply H. apply incl_refl. }
      destruct Hd as (w & Hw). exists (lincomb (map fst (dead phi g P n s t)) y w). split.
      + apply chain_comb. intros b Hb _. apply Hw. auto.
      + intros r. unfold bdry. rewrite <- lincomb_assoc.
        transitivity (lincomb (map fst (dead phi g P n s t)) y Z r).
        { unfold lincomb at 1 3. apply vsum_ext. intros b Hb. f_equal. apply (Hw b Hb). }
        assert (Eq : z r = lincomb (alive phi g E P n s t ++ map fst (dead phi g P n s t)) y Z r).
        { rewrite Ez. transitivity (lincomb (alive phi g E P n s t ++ map fst (dead phi g P n s t)) y M r).
          - apply lincomb_incl; auto; [apply (@alive_dead_nodup K F C phi g l D V Hl Hcx HV HR E P HEn HPn HP HE)| |].
            + apply incl_app; [exact Hinc|]. intros c Hc. apply in_map_iff in Hc. destruct Hc as ([i j] & <- & Hp). apply de_in in Hp. eapply p_birth; apply Hp.
            + intros b Hb Hnb. destruct (fscalar_dec (y b)) as [|Hyb]; auto. exfalso. apply Hnb. apply in_app_iff.
              destruct (Hy b Hyb) as (_ & H1 & H2). destruct (tri b Hb) as [H3|[(j & H3)|(i & H3)]].
              * left. apply al_in. auto.
              * destruct (oltb_spec t (phi j)) as [Hlt|Hge].
                -- left. apply al_in. eauto 10.
                -- right. apply in_map_iff. exists (b, j). split; auto. apply de_in. split; auto. split; auto. split; auto. apply ole_not_lt. auto.
              * exfalso. eapply Hy0; eauto.
          - unfold lincomb. apply vsum_ext. intros b Hb. rewrite M_birth; auto. apply in_app_iff in Hb. destruct Hb as [Hb|Hb]; [auto|].
            apply in_map_iff in Hb. destruct Hb as ([i j] & <- & Hp). apply de_in in Hp. right. exists j. apply Hp. }
        rewrite Eq, lincomb_app. ring.
    - intros a Ha b Hb. destruct (fscalar_dec (a b)) as [|Hab]; auto. exfalso.
      assert (HaM : forall r, lincomb (alive phi g E P n s t) a Z r = lincomb (alive phi g E P n s t) a M r).
      { intros r. unfold lincomb. apply vsum_ext. intros c Hc. rewrite M_birth; auto. }
      destruct (@reduced_comb K F C C phi M (alive phi g E P n s t) a HN (M_dich Hinc)) as [[_ H0]|(i & k & Hk & Hyk & Hlk & Hli & _)].
      + intros j k i Hj Hk. apply M_reduced; apply Hinc; auto.
      + destruct (H0 b Hb) as [|H1]; [auto|]. eapply leading_not_zero; [|exact H1]. apply (M_chain b). apply Hinc. auto.
      + assert (Hk2 : leading phi (M k) k) by (apply M_chain; apply Hinc; auto). rewrite (leading_unique Hlk Hk2) in Hli.
        assert (Hlead : leading phi (lincomb (alive phi g E P n s t) a Z) k) by (eapply leading_ext; [|exact Hli]; intros r; symmetry; apply HaM).
        destruct (boundary_lead Ha Hlead) as (j & Hj & Hle). apply al_in in Hk. destruct Hk as (_ & _ & [Hk|(j' & Hk & Hlt)]).
        * exact (e_birth _ _ Hk Hj).
        * rewrite (p_death_u _ _ _ Hk Hj) in Hlt. apply ole_not_lt in Hle. auto.
  Qed.
End Fam.
