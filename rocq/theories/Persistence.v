(** The pairs of a graded filtered complex decompose its persistent homology into intervals. *)
From Verif Require Import Base Fields Spec LinAlg Columns ColumnsFacts Matrices SpecMat MatricesFacts Reduction LoopProofs StandardProofs ReadOffProofs Graded SpecPH.
From Coq Require Import Ring Field.
Set Implicit Arguments.

Lemma nodup_app_intro {A} (a b : list A) : NoDup a -> NoDup b -> (forall x, In x a -> ~ In x b) -> NoDup (a ++ b).
Proof.
  induction a as [|x a IH]; intros Ha Hb Hd; simpl; auto. inversion Ha; subst. constructor.
  - rewrite in_app_iff. intros [?|?]; auto. eapply Hd; simpl; eauto.
  - apply IH; auto. intros y Hy. apply Hd. simpl; auto.
Qed.
Lemma nodup_map_intro {A B} (f : A -> B) (l : list A) :
  NoDup l -> (forall x y, In x l -> In y l -> f x = f y -> x = y) -> NoDup (map f l).
Proof.
  induction l as [|a l IH]; intros Hn Hi; simpl; constructor; inversion Hn; subst.
  - intros Hin. apply in_map_iff in Hin. destruct Hin as (q & Eq & Hq). apply H1. rewrite (Hi a q); simpl; auto.
  - apply IH; auto. intros x y Hx Hy. apply Hi; simpl; auto.
Qed.
Lemma find_none_map {A B : Type} (p : A -> bool) (l : list A) : find p l = None <-> forall x, In x l -> p x = false.
Proof.
  split; [intros H x Hx; eapply find_none; eauto|].
  induction l as [|a l IH]; simpl; intros H; auto. rewrite (H a) by auto. apply IH. auto.
Qed.

Section Per.
  Context {K : coeffT} {F C : ordT} (phi : C -> F).
  Add Field KFPer : (F_field K).
  Variables (g : C -> Z) (e : Z) (l : list C) (D : C -> vec K C) (V : C -> vec K C).
  Hypothesis Hl : NoDup l.
  Hypothesis Hcx : complex l D.
  Hypothesis Hg : graded g e l D.
  Hypothesis HO : graded_order phi g l.
  Hypothesis HV : triangular l V.
  Notation R := (fun j => lincomb l (V j) D).
  Hypothesis HR : reduced phi l R.

  Lemma per_supp x r : lincomb l x D r <> f0 -> In r l.
  Proof.
    intros H. apply lincomb_nonzero in H. destruct H as (c & Hc & _ & Hn). destruct Hcx as [H _]. eapply H; eauto.
  Qed.
  Lemma per_fin x : vzero (lincomb l x D) \/ exists i, leading phi (lincomb l x D) i.
  Proof. apply leading_exists with (S := l). intros r. apply per_supp. Qed.
  Let dichR : dich phi R l.
  Proof. intros j _. apply per_fin. Qed.

  Variables (E : list C) (P : list (C * C)).
  Hypothesis HEn : NoDup E.
  Hypothesis HPn : NoDup P.
  Hypothesis HP : forall i j, In (i, j) P <-> In j l /\ is_pair phi l D i j.
  Hypothesis HE : forall c, In c E <-> is_essential phi l D c.

  Lemma P_lead i j : In (i, j) P <-> In j l /\ leading phi (R j) i.
  Proof. rewrite HP. split; intros [Hj H]; split; auto; apply (intrinsic_pair Hl HV HR dichR); auto. Qed.
  Lemma P_grade i j : In (i, j) P -> g i = (g j + e)%Z.
  Proof. intros H. apply HP in H. destruct H as [_ H]. exact (pair_grade per_fin Hg H). Qed.
  Lemma P_birth i j : In (i, j) P -> In i l /\ is_positive l D i.
  Proof. intros H. apply HP in H. destruct H as [Hj H]. eapply birth_positive; eauto. Qed.
  Lemma P_death_u i j j' : In (i, j) P -> In (i, j') P -> j = j'.
  Proof. intros H H'. apply HP in H, H'. destruct H, H'. eapply (pair_death_unique Hl HV HR per_fin) with (i := i); auto. Qed.
  Lemma P_birth_u i i' j : In (i, j) P -> In (i', j) P -> i = i'.
  Proof. intros H H'. apply HP in H, H'. destruct H, H'. eapply (pair_birth_unique Hl HV HR per_fin) with (j := j); auto. Qed.
  Lemma P_not_both i j k : In (i, j) P -> In (k, i) P -> False.
  Proof.
    intros H H'. apply P_birth in H. apply HP in H'. destruct H as [_ H], H' as [_ H']. eapply positive_not_death; eauto.
  Qed.
  Lemma E_not_birth c j : In c E -> In (c, j) P -> False.
  Proof. intros H H'. apply HE in H. apply HP in H'. destruct H as (_ & _ & H), H' as [Hj H']. eapply H; eauto. Qed.
  Lemma E_not_death c i : In c E -> In (i, c) P -> False.
  Proof. intros H H'. apply HE in H. apply HP in H'. destruct H as (_ & H & _), H' as [Hj H']. eapply positive_not_death; eauto. Qed.
  Lemma trichotomy c : In c l -> In c E \/ (exists j, In (c, j) P) \/ exists i, In (i, c) P.
  Proof.
    intros Hc. destruct (positive_or_death Hl HV HR per_fin c Hc) as [Hp|(i & Hi)].
    - destruct (birth_dec Hl HV HR per_fin c Hc) as [(k & Hk & Hb)|Hb].
      + right. left. exists k. apply HP. auto.
      + left. apply HE. split; auto.
    - right. right. exists i. apply HP. auto.
  Qed.

  Arguments P_grade {i j}. Arguments P_death_u {i j j'}. Arguments P_birth_u {i i' j}. Arguments P_not_both {i j k}. Arguments E_not_birth {c j}. Arguments E_not_death {c i}.

  (** the part of column [j] of [V] in the degree of [j] *)
  Definition W (j : C) : vec K C := fun c => if in_dec ord_eq_dec c l then restrict g (g j) (V j) c else f0.

  Lemma W_chain j : In j l -> chain_at phi g l (g j) (phi j) (W j) /\ leading phi (W j) j.
  Proof.
    intros Hj. destruct (HV j Hj) as (B1 & B2 & El & Hjj & Hz).
    assert (Hle : forall c, W j c <> f0 -> In c l /\ g c = g j /\ row_le phi c j).
    { intros c Hc. unfold W, restrict in Hc. destruct (in_dec ord_eq_dec c l) as [Hin|]; [|congruence].
      destruct (Z.eqb_spec (g c) (g j)) as [Eg|]; [|congruence]. split; auto. split; auto.
      pose proof Hin as Hin'. rewrite El in Hin'. apply in_app_iff in Hin'. destruct Hin' as [H1|[->|H2]].
      - left. apply HO; auto. apply in_split in H1. destruct H1 as (A & A' & ->). exists A, A', B2. rewrite El, <- app_assoc. reflexivity.
      - now right.
      - exfalso. apply Hc. auto. }
    split.
    - intros c Hc. destruct (Hle c Hc) as (H1 & H2 & H3). split; auto. split; auto.
      destruct H3 as [[H3|[H3 _]]| ->]; [apply olt_le; auto|rewrite H3; apply ole_refl|apply ole_refl].
    - split.
      + unfold W, restrict. destruct (in_dec ord_eq_dec j l); [|tauto]. now rewrite Z.eqb_refl.
      + intros r Hr. destruct (fscalar_dec (W j r)) as [|Hn]; auto. exfalso. destruct (Hle r Hn) as (_ & _ & H).
        apply (@row_le_not_lt F C phi) in H. auto.
  Qed.
  Lemma W_bdry j r : lincomb l (W j) D r = if (g r =? g j + e)%Z then R j r else f0.
  Proof.
    cbv beta. rewrite <- (lincomb_restrict Hg). apply lincomb_ext; auto. intros b Hb. unfold W.
    destruct (in_dec ord_eq_dec b l); tauto.
  Qed.
  Lemma W_pair i j : In (i, j) P -> leading phi (lincomb l (W j) D) i /\ chain_at phi g l (g i) (phi i) (lincomb l (W j) D).
  Proof.
    intros H. pose proof (P_grade H) as Eg. apply P_lead in H. destruct H as [Hj [H1 H2]].
    assert (Hl1 : leading phi (lincomb l (W j) D) i).
    { split; [rewrite W_bdry, Eg, Z.eqb_refl; auto|]. intros r Hr. rewrite W_bdry. destruct (_ =? _)%Z; auto. }
    split; auto. intros c Hc. split; [eapply per_supp; eauto|]. split.
    - rewrite W_bdry in Hc. destruct (Z.eqb_spec (g c) (g j + e)); [|congruence]. lia.
    - apply ole_not_lt. intros Hlt. apply Hc. apply Hl1. left. auto.
  Qed.
  Lemma W_positive j : In j l -> (forall i, ~ In (i, j) P) -> vzero (lincomb l (W j) D).
  Proof.
    intros Hj Hn r. rewrite W_bdry. destruct (_ =? _)%Z; auto.
    destruct (dichR j Hj) as [Hz|(i & Hi)]; auto. exfalso. apply (Hn i). apply P_lead. auto.
  Qed.

  Definition death (i : C) : option C := option_map snd (find (fun p => oeqb (fst p) i) P).
  Lemma death_some i j : death i = Some j <-> In (i, j) P.
  Proof.
    unfold death. destruct (find _ P) as [[i' k]|] eqn:Ef; simpl.
    - apply find_some in Ef. destruct Ef as [Hin Ei]. simpl in Ei. apply oeqb_eq in Ei. subst i'. split.
      + intros [= <-]. auto.
      + intros H. f_equal. eapply @P_death_u; eauto.
    - split; [discriminate|]. intros H. apply (find_none _ _ Ef) in H. simpl in H. rewrite oeqb_refl in H. discriminate.
  Qed.

  (** the adapted basis: bounding cycles at births of pairs, parts of columns of [V] elsewhere *)
  Definition Y (j : C) : vec K C := match death j with Some k => lincomb l (W k) D | None => W j end.

  Lemma Y_chain j : In j l -> chain_at phi g l (g j) (phi j) (Y j) /\ leading phi (Y j) j.
  Proof.
    intros Hj. unfold Y. destruct (death j) as [k|] eqn:Ed; [|apply W_chain; auto].
    apply death_some in Ed. split; apply W_pair; auto.
  Qed.
  Lemma Y_death i j : In (i, j) P -> forall r, lincomb l (Y j) D r = Y i r.
  Proof.
    intros H r. assert (Ei : death i = Some j) by (apply death_some; auto).
    assert (Ej : death j = None).
    { destruct (death j) as [k|] eqn:Ed; auto. apply death_some in Ed. exfalso. match goal with H : In (_, j) P |- _ => exact (P_not_both Ed H) end. }
    unfold Y. rewrite Ei, Ej. reflexivity.
  Qed.
  Arguments Y_death {i j}.
  Lemma Y_cycle j : In j l -> (forall i, ~ In (i, j) P) -> vzero (lincomb l (Y j) D).
  Proof.
    intros Hj Hn. unfold Y. destruct (death j) as [k|] eqn:Ed; [|apply W_positive; auto].
    apply complex_square; auto.
  Qed.
  Lemma Y_bdry_lead i j : In j l -> leading phi (lincomb l (Y j) D) i -> In (i, j) P.
  Proof.
    intros Hj Hlead. destruct (trichotomy j Hj) as [He|[(k & Hk)|(i' & Hi)]].
    - exfalso. refine (leading_not_zero Hlead (Y_cycle j Hj _)). intros i' Hi. eapply E_not_death; eauto.
    - exfalso. refine (leading_not_zero Hlead (Y_cycle j Hj _)). intros i' Hi. exact (P_not_both Hk Hi).
    - assert (Ei : i = i').
      { eapply leading_unique; eauto. eapply leading_ext; [intros r; symmetry; apply (Y_death Hi)|]. apply Y_chain. eapply P_birth; eauto. }
      subst. auto.
  Qed.
  Lemma Y_reduced : reduced phi l Y.
  Proof.
    intros j k i Hj Hk H1 H2. destruct (Y_chain j Hj) as [_ H3], (Y_chain k Hk) as [_ H4].
    rewrite (leading_unique H3 H1). apply (leading_unique H2 H4).
  Qed.
  Lemma Y_dich (B : list C) : incl B l -> dich phi Y B.
  Proof. intros Hi j Hj. right. exists j. apply Y_chain. auto. Qed.
  Lemma YD_reduced : reduced phi l (fun j => lincomb l (Y j) D).
  Proof.
    intros j k i Hj Hk H1 H2. apply Y_bdry_lead in H1, H2; auto. eapply @P_death_u; eauto.
  Qed.
  Lemma Y_triangular : triangular l Y.
  Proof.
    intros j Hj. destruct (Y_chain j Hj) as [Hc [H1 H2]]. pose proof (in_split _ _ Hj) as (B1 & B2 & El). exists B1, B2. split; auto. split; auto.
    intros b Hb. destruct (fscalar_dec (Y j b)) as [|Hn]; auto. exfalso. apply Hn. apply H2.
    apply HO; [|symmetry; apply Hc; auto]. apply before_split. eauto.
  Qed.

  Lemma chain_expand n s z : chain_at phi g l n s z -> exists y, chain_at phi g l n s y /\ forall r, z r = lincomb l y Y r.
  Proof.
    intros Hz. destruct (@triangular_solve K C Y [] l z) as (y & Hy & _ & _).
    - now rewrite app_nil_r.
    - rewrite app_nil_r. exact Y_triangular.
    - assert (Hout : forall B x r, incl B l -> lincomb B x Y r <> f0 -> In r l).
      { intros B x r HB Hn. apply lincomb_nonzero in Hn. destruct Hn as (c & Hc & _ & Hn). apply (proj1 (Y_chain c (HB c Hc))) in Hn. tauto. }
      exists (fun c => if in_dec ord_eq_dec c l then restrict g n y c else f0).
      assert (Ez : forall r, z r = lincomb l (fun c => if in_dec ord_eq_dec c l then restrict g n y c else f0) Y r).
      { intros r. transitivity (lincomb l (restrict g n y) Y r).
        2:{ apply lincomb_ext; auto. intros b Hb. destruct (in_dec ord_eq_dec b l); tauto. }
        destruct (in_dec ord_eq_dec r l) as [Hr|Hr].
        - destruct (Z.eq_dec (g r) n) as [Eg|Eg].
          + rewrite <- (Hy r Hr). apply vsum_ext. intros c Hc. unfold restrict. destruct (Z.eqb_spec (g c) n) as [|Hne]; auto.
            destruct (fscalar_dec (Y c r)) as [->|Hn]; [ring|]. exfalso. apply (proj1 (Y_chain c Hc)) in Hn. destruct Hn as (_ & Hn & _). lia.
          + symmetry. destruct (fscalar_dec (z r)) as [->|Hn]; [|apply Hz in Hn; tauto]. apply lincomb_0. intros c Hc. unfold restrict.
            destruct (Z.eqb_spec (g c) n) as [Ec|Hne]; auto. right.
            destruct (fscalar_dec (Y c r)) as [|Hn]; auto. exfalso. apply (proj1 (Y_chain c Hc)) in Hn. destruct Hn as (_ & Hn & _). lia.
        - destruct (fscalar_dec (z r)) as [E0|Hn]; [|apply Hz in Hn; tauto]. rewrite E0. symmetry.
          destruct (fscalar_dec (lincomb l (restrict g n y) Y r)) as [|Hn]; auto. exfalso. apply Hr. eapply (Hout l); eauto. apply incl_refl. }
      split; [|exact Ez]. set (y' := fun c => if in_dec ord_eq_dec c l then restrict g n y c else f0) in *.
      intros c Hc. assert (Hcl : In c l) by (unfold y' in Hc; destruct (in_dec ord_eq_dec c l); [auto|congruence]).
      assert (Hcg : g c = n).
      { unfold y' in Hc. destruct (in_dec ord_eq_dec c l); [|congruence]. unfold restrict in Hc. destruct (Z.eqb_spec (g c) n); [auto|congruence]. }
      split; auto. split; auto.
      destruct (@reduced_comb K F C C phi Y l y' Hl (Y_dich (incl_refl l)) Y_reduced) as [[_ H0]|(i & k & Hk & Hyk & Hlk & Hli & Hb)].
      + exfalso. destruct (H0 c Hcl) as [|H1]; [auto|]. eapply leading_not_zero; [apply (Y_chain c Hcl)|auto].
      + assert (Hle : row_le phi c i) by (apply (Hb c c Hcl Hc); apply (Y_chain c Hcl)).
        destruct Hli as [Hni _]. rewrite <- Ez in Hni. apply Hz in Hni. destruct Hni as (_ & _ & Hs).
        eapply ole_trans; [|exact Hs]. destruct Hle as [[H3|[H3 _]]| ->]; [apply olt_le; auto|rewrite H3; apply ole_refl|apply ole_refl].
  Qed.

  (** combinations of chains *)
  Lemma chain_comb {I : Type} n t (B : list I) (x : vec K I) (M : I -> vec K C) :
    (forall b, In b B -> x b <> f0 -> chain_at phi g l n t (M b)) -> chain_at phi g l n t (lincomb B x M).
  Proof.
    intros H c Hc. unfold lincomb in Hc. induction B as [|b B IH]; simpl in Hc; [congruence|].
    destruct (fscalar_dec (x b)) as [E0|Hx].
    - apply IH; [intros; apply H; simpl; auto|]. rewrite E0 in Hc. intros Hq. apply Hc. rewrite Hq. ring.
    - destruct (fscalar_dec (M b c)) as [E0|Hm].
      + apply IH; [intros; apply H; simpl; auto|]. rewrite E0 in Hc. intros Hq. apply Hc. rewrite Hq. ring.
      + apply (H b); simpl; auto.
  Qed.
  Lemma chain_mono n s t (z : vec K C) : chain_at phi g l n s z -> ole s t -> chain_at phi g l n t z.
  Proof. intros H Hst c Hc. destruct (H c Hc) as (H1 & H2 & H3). split; auto. split; auto. eapply ole_trans; eauto. Qed.

  Definition dead n s t := filter (fun p => (g (fst p) =? n)%Z && oleb (phi (fst p)) s && negb (oltb t (phi (snd p)))) P.

  Lemma alive_in n s t c : In c (alive phi g E P n s t) <->
    g c = n /\ ole (phi c) s /\ (In c E \/ exists j, In (c, j) P /\ olt t (phi j)).
  Proof.
    unfold alive. rewrite in_app_iff, filter_In, in_map_iff. split.
    - intros [[Hc H]|([i j] & E1 & H)].
      + apply andb_prop in H. destruct H as [H1 H2]. apply Z.eqb_eq in H1. destruct (oleb_spec (phi c) s); [auto|discriminate].
      + simpl in E1. subst i. apply filter_In in H. destruct H as [Hin H]. simpl in H. apply andb_prop in H. destruct H as [H H3]. apply andb_prop in H. destruct H as [H1 H2].
        apply Z.eqb_eq in H1. destruct (oleb_spec (phi c) s); [|discriminate]. destruct (oltb_spec t (phi j)); [|discriminate]. eauto 10.
    - intros (H1 & H2 & [H3|(j & H3 & H4)]).
      + left. split; auto. rewrite H1, Z.eqb_refl. destruct (oleb_spec (phi c) s); [auto|tauto].
      + right. exists (c, j). split; auto. apply filter_In. split; auto. simpl. rewrite H1, Z.eqb_refl.
        destruct (oleb_spec (phi c) s); [|tauto]. destruct (oltb_spec t (phi j)); [auto|tauto].
  Qed.
  Lemma dead_in n s t i j : In (i, j) (dead n s t) <-> In (i, j) P /\ g i = n /\ ole (phi i) s /\ ole (phi j) t.
  Proof.
    unfold dead. rewrite filter_In. simpl. rewrite !andb_true_iff, Z.eqb_eq, negb_true_iff. split.
    - intros (H & (H1 & H2) & H3). destruct (oleb_spec (phi i) s); [|discriminate]. destruct (oltb_spec t (phi j)); [discriminate|].
      split; auto. split; auto. split; auto. apply ole_not_lt. auto.
    - intros (H & H1 & H2 & H3). split; auto. split; [split; auto|].
      + destruct (oleb_spec (phi i) s); tauto.
      + destruct (oltb_spec t (phi j)); auto. apply ole_not_lt in H3. tauto.
  Qed.
  Lemma P_fst_inj p q : In p P -> In q P -> fst p = fst q -> p = q.
  Proof. destruct p as [i j], q as [i' j']. simpl. intros H H' <-. f_equal. eapply @P_death_u; eauto. Qed.
  Lemma alive_nodup n s t : NoDup (alive phi g E P n s t).
  Proof.
    apply nodup_app_intro; [apply NoDup_filter; auto| |].
    - apply nodup_map_intro; [apply NoDup_filter; auto|]. intros p q Hp Hq. apply filter_In in Hp, Hq. apply P_fst_inj; tauto.
    - intros c Hc Hc'. apply filter_In in Hc. apply in_map_iff in Hc'. destruct Hc' as ([i j] & <- & Hp). apply filter_In in Hp.
      eapply E_not_birth; [apply Hc|apply Hp].
  Qed.
  Lemma alive_incl n s t : incl (alive phi g E P n s t) l.
  Proof.
    intros c Hc. apply alive_in in Hc. destruct Hc as (_ & _ & [Hc|(j & Hc & _)]); [apply HE in Hc; apply Hc|eapply P_birth; eauto].
  Qed.
  Lemma alive_dead_nodup n s t : NoDup (alive phi g E P n s t ++ map fst (dead n s t)).
  Proof.
    apply nodup_app_intro; [apply alive_nodup| |].
    - apply nodup_map_intro; [apply NoDup_filter; auto|]. intros p q Hp Hq. apply filter_In in Hp, Hq. apply P_fst_inj; tauto.
    - intros c Hc Hc'. apply in_map_iff in Hc'. destruct Hc' as ([i j] & <- & Hp). simpl in *. apply dead_in in Hp. destruct Hp as (Hp & _ & _ & Hle).
      apply alive_in in Hc. destruct Hc as (_ & _ & [Hc|(j' & Hc & Hlt)]); [eapply E_not_birth; eauto|].
      rewrite (P_death_u Hc Hp) in Hlt. apply ole_not_lt in Hle. auto.
  Qed.

  Theorem interval_basis n s t : persistent_basis phi g e l D n s t (alive phi g E P n s t) Y.
  Proof.
    split; [apply alive_nodup|]. split; [|split].
    - intros c Hc. pose proof (alive_incl _ _ _ _ Hc) as Hcl. apply alive_in in Hc. destruct Hc as (<- & Hs & Hc). split.
      + eapply chain_mono; [apply Y_chain; auto|auto].
      + apply Y_cycle; auto. intros i Hi. destruct Hc as [Hc|(j & Hc & _)]; [exact (E_not_death Hc Hi)|exact (P_not_both Hc Hi)].
    - intros z [Hz Hbz]. destruct (chain_expand Hz) as (y & Hy & Ez). exists y.
      assert (Hy0 : forall j, In j l -> y j <> f0 -> forall i, ~ In (i, j) P).
      { intros j Hj Hyj i Hi.
        assert (Eb : forall r, bdry l D z r = lincomb l y (fun j => lincomb l (Y j) D) r).
        { intros r. rewrite lincomb_assoc. unfold bdry. apply lincomb_ext; auto. }
        destruct (@reduced_comb K F C C phi (fun j => lincomb l (Y j) D) l y Hl (fun j _ => per_fin (Y j)) YD_reduced) as [[_ H0]|(i' & k & Hk & Hyk & Hlk & Hli & Hb)].
        - destruct (H0 j Hj) as [|H1]; [auto|]. assert (Hlead : leading phi (Y i) i) by (apply Y_chain; eapply P_birth; eauto).
          eapply leading_not_zero; [exact Hlead|]. intros r. rewrite <- (Y_death Hi). apply H1.
        - eapply leading_not_zero; [exact Hli|]. intros r. rewrite <- Eb. apply Hbz. }
      pose (pc := pair_ord C C). pose (dd := dead n s t : list pc).
      exists (lincomb dd (fun p : pc => y (fst p)) (fun p => W (snd p))). split.
      + apply chain_comb. intros [i j] Hp _. apply dead_in in Hp. destruct Hp as (Hp & Hgi & _ & Hle).
        cbn [snd]. pose proof (P_grade Hp) as Eg. replace (n - e)%Z with (g j) by lia. eapply chain_mono; [apply W_chain|exact Hle]. apply HP in Hp. tauto.
      + intros r. unfold bdry. rewrite <- (lincomb_assoc (C:=pc)).
        transitivity (lincomb (map fst (dead n s t)) y Y r).
        * unfold lincomb at 1 3. rewrite vsum_map. apply vsum_ext. intros [i j] Hp. apply dead_in in Hp. destruct Hp as (Hp & _).
          cbn [fst snd]. f_equal. rewrite <- (Y_death Hp). apply lincomb_ext; auto. intros b _. unfold Y.
          destruct (death j) as [k|] eqn:Ed; auto. apply death_some in Ed. exfalso. match goal with H : In (_, j) P |- _ => exact (P_not_both Ed H) end.
        * assert (Eq : z r = lincomb (alive phi g E P n s t ++ map fst (dead n s t)) y Y r).
          { rewrite Ez. apply lincomb_incl; auto; [apply alive_dead_nodup| |].
            - apply incl_app; [apply alive_incl|]. intros c Hc. apply in_map_iff in Hc. destruct Hc as ([i j] & <- & Hp). apply dead_in in Hp. eapply P_birth; apply Hp.
            - intros b Hb Hnb. destruct (fscalar_dec (y b)) as [|Hyb]; auto. exfalso. apply Hnb. apply in_app_iff.
              destruct (Hy b Hyb) as (_ & H1 & H2). destruct (trichotomy b Hb) as [H3|[(j & H3)|(i & H3)]].
              + left. apply alive_in. auto.
              + destruct (oltb_spec t (phi j)) as [Hlt|Hge].
                * left. apply alive_in. eauto 10.
                * right. apply in_map_iff. exists (b, j). split; auto. apply dead_in. split; auto. split; auto. split; auto. apply ole_not_lt. auto.
              + exfalso. eapply Hy0; eauto. }
          rewrite Eq, lincomb_app. ring.
    - intros a (w & Hw & Ew) b Hb. destruct (fscalar_dec (a b)) as [|Hab]; auto. exfalso.
      assert (Ha : exists k, In k (alive phi g E P n s t) /\ leading phi (lincomb (alive phi g E P n s t) a Y) k).
      { destruct (@reduced_comb K F C C phi Y (alive phi g E P n s t) a (alive_nodup n s t) (Y_dich (alive_incl n s t))) as [[_ H0]|(i & k & Hk & Hyk & Hlk & Hli & _)].
        - intros j k i Hj Hk. apply Y_reduced; eapply alive_incl; eauto.
        - exfalso. destruct (H0 b Hb) as [|H1]; [auto|]. eapply leading_not_zero; [|exact H1]. apply (Y_chain b). eapply alive_incl; eauto.
        - exists k. split; auto. assert (Hk2 : leading phi (Y k) k) by (apply Y_chain; eapply alive_incl; eauto).
          rewrite (leading_unique Hk2 Hlk). auto. }
      destruct Ha as (i & Hi & Hlead).
      destruct (chain_expand Hw) as (y & Hy & Ey).
      assert (Eb : forall r, lincomb (alive phi g E P n s t) a Y r = lincomb l y (fun j => lincomb l (Y j) D) r).
      { intros r. rewrite <- Ew, lincomb_assoc. unfold bdry. apply lincomb_ext; auto. }
      destruct (@reduced_comb K F C C phi (fun j => lincomb l (Y j) D) l y Hl (fun j _ => per_fin (Y j)) YD_reduced) as [[H0 _]|(i' & k & Hk & Hyk & Hlk & Hli & _)].
      + eapply leading_not_zero; [exact Hlead|]. intros r. rewrite Eb. apply H0.
      + assert (Ei : i' = i) by (eapply leading_unique; [exact Hli|]; eapply leading_ext; [exact Eb|exact Hlead]).
        subst i'. apply Y_bdry_lead in Hlk; auto. apply alive_in in Hi. destruct Hi as (_ & _ & [Hi|(j & Hi & Hlt)]).
        * eapply E_not_birth; eauto.
        * rewrite (P_death_u Hi Hlk) in Hlt. apply Hy in Hyk. destruct Hyk as (_ & _ & Hle). apply ole_not_lt in Hle. auto.
  Qed.

  (** the representative of a pair bounds from its death on *)
  Theorem interval_bounds i j : In (i, j) P -> boundary_at phi g e l D (g i) (phi j) (Y i).
  Proof.
    intros H. pose proof (P_grade H) as Eg. apply HP in H as H'. destruct H' as [Hj _]. exists (Y j). split.
    - replace (g i - e)%Z with (g j) by lia. apply Y_chain. auto.
    - intros r. apply (Y_death H).
  Qed.
  Theorem interval_born c : In c E \/ (exists j, In (c, j) P) -> cycle_at phi g l D (g c) (phi c) (Y c).
  Proof.
    intros H. assert (Hc : In c l) by (destruct H as [H|(j & H)]; [apply HE in H; apply H|eapply P_birth; eauto]).
    split; [apply Y_chain; auto|]. apply Y_cycle; auto. intros i Hi. destruct H as [H|(j & H)]; [exact (E_not_death H Hi)|exact (P_not_both H Hi)].
  Qed.

  (** when the columns of [V] are homogeneous the representatives are the columns of [V] and [D V] *)
  Hypothesis Hhom : forall j x, In j l -> V j x <> f0 -> In x l /\ g x = g j.
  Lemma W_col j r : In j l -> W j r = V j r.
  Proof.
    intros Hj. unfold W, restrict. destruct (fscalar_dec (V j r)) as [E0|Hn].
    - rewrite E0. destruct (in_dec _ _ _); auto. destruct (_ =? _)%Z; auto.
    - destruct (Hhom Hj Hn) as [Hin Eg]. destruct (in_dec ord_eq_dec r l); [|tauto]. rewrite Eg, Z.eqb_refl. auto.
  Qed.
  Lemma Y_essential c r : In c E -> Y c r = V c r.
  Proof.
    intros Hc. unfold Y. destruct (death c) as [k|] eqn:Ed.
    - apply death_some in Ed. exfalso. exact (E_not_birth Hc Ed).
    - apply W_col. apply HE in Hc. apply Hc.
  Qed.
  Lemma Y_paired i j r : In (i, j) P -> Y i r = lincomb l (V j) D r.
  Proof.
    intros H. assert (Hj : In j l) by (apply HP in H; tauto). unfold Y. apply death_some in H. rewrite H.
    apply lincomb_ext; auto. intros b _. apply W_col. auto.
  Qed.

  Theorem interval_decomposition : exists Z : C -> vec K C,
    (forall c, In c E -> (forall r, Z c r = V c r) /\ cycle_at phi g l D (g c) (phi c) (Z c)) /\
    (forall i j, In (i, j) P -> (forall r, Z i r = lincomb l (V j) D r) /\
       cycle_at phi g l D (g i) (phi i) (Z i) /\ boundary_at phi g e l D (g i) (phi j) (Z i)) /\
    forall n s t, persistent_basis phi g e l D n s t (alive phi g E P n s t) Z.
  Proof.
    exists Y. split; [|split].
    - intros c Hc. split; [intros r; apply Y_essential; auto|]. apply interval_born. auto.
    - intros i j H. split; [intros r; apply Y_paired; auto|]. split; [apply interval_born; eauto|apply interval_bounds; auto].
    - apply interval_basis.
  Qed.
End Per.
