(** Lemmas for C108: below the distance between two groups of points the Rips complex is the disjoint union of those of the groups. *)
From Verif Require Import Base Fields FieldsFacts Spec LinAlg Columns ColumnsFacts Matrices Reduction Rips SpecRips SpecPath RipsCode RipsFacts RipsBasis RipsComplex PropRips RipsCohomology PropRipsCohomology SpecPH Persistence BettiUnique RipsPersistence PropRipsPersistence PropRipsCli BettiMaps BettiFactor BarsUnique RipsSwap PropRipsOrder RipsRepeat RipsCover PropRipsRepeat RipsBars SplitBetti ClusterBetti Examples.
From Coq Require Import Ring Field Permutation Sorted Lia ListDec.
Set Implicit Arguments.

Section Shift.
  Context {K : coeffT} (o : nat).
  Definition up (u : list nat) : list nat := map (Nat.add o) u.
  Definition down (u : list nat) : list nat := map (fun v => v - o) u.
  Lemma down_up u : down (up u) = u.
  Proof. unfold down, up. rewrite map_map. rewrite <- map_id. apply map_ext. intros x. lia. Qed.
  Lemma up_down u : (forall v, In v u -> o <= v) -> up (down u) = u.
  Proof. intros H. unfold down, up. rewrite map_map. rewrite <- map_id. apply map_ext_in. intros x Hx. specialize (H x Hx). lia. Qed.
  Lemma up_inj u v : up u = up v -> u = v.
  Proof. intros E. rewrite <- (down_up u), E. apply down_up. Qed.
  Lemma sorted_up u : StronglySorted lt u -> StronglySorted lt (up u).
  Proof.
    induction 1 as [|x u Hs IH Hf]; cbn; constructor; auto. apply Forall_forall. intros y Hy. apply in_map_iff in Hy. destruct Hy as (w & <- & Hw). rewrite Forall_forall in Hf. specialize (Hf w Hw). lia.
  Qed.
  Lemma sorted_down u : (forall v, In v u -> o <= v) -> StronglySorted lt u -> StronglySorted lt (down u).
  Proof.
    intros Ho H. induction H as [|x u Hs IH Hf]; cbn; constructor; [apply IH; intros v Hv; apply Ho; now right|]. apply Forall_forall. intros y Hy. apply in_map_iff in Hy. destruct Hy as (w & <- & Hw). rewrite Forall_forall in Hf. specialize (Hf w Hw).
    pose proof (Ho x (or_introl eq_refl)). pose proof (Ho w (or_intror Hw)). lia.
  Qed.
  Lemma up_simplex' m n u : o + m <= n -> simplex m u -> simplex n (up u).
  Proof.
    intros Hn (H1 & H2 & H3). split; [destruct u; [congruence|discriminate]|]. split; [now apply sorted_up|]. apply Forall_forall. intros y Hy. apply in_map_iff in Hy. destruct Hy as (w & <- & Hw). rewrite Forall_forall in H3. specialize (H3 w Hw). lia.
  Qed.
  Lemma down_simplex m n u : n <= o + m -> (forall v, In v u -> o <= v) -> simplex n u -> simplex m (down u).
  Proof.
    intros Hn Ho (H1 & H2 & H3). split; [destruct u; [congruence|discriminate]|]. split; [now apply sorted_down|]. apply Forall_forall. intros y Hy. apply in_map_iff in Hy. destruct Hy as (w & <- & Hw). rewrite Forall_forall in H3. specialize (H3 w Hw). specialize (Ho w Hw). lia.
  Qed.
  Lemma facet_up t i s : facet t i s <-> facet (up t) i (up s).
  Proof.
    split.
    - intros (a & v & b & -> & -> & El). exists (up a), (o + v), (up b). unfold up. rewrite !map_app. split; [reflexivity|]. split; auto. now rewrite map_length.
    - intros (a & v & b & E1 & E2 & El). exists (down a), (v - o), (down b). split; [|split].
      + rewrite <- (down_up t), E1. unfold down. now rewrite map_app.
      + rewrite <- (down_up s), E2. unfold down. now rewrite map_app.
      + unfold down. now rewrite map_length.
  Qed.
  Lemma inc_up t s : NoDup t -> (inc (up t) (up s) : option K) = inc t s.
  Proof.
    intros Hn. destruct (facet_dec t s) as [(i & Hf)|Hno].
    - rewrite (inc_facet Hn Hf). apply inc_facet; [|exact (proj1 (facet_up t i s) Hf)]. unfold up. apply FinFun.Injective_map_NoDup; auto. intros x y H. lia.
    - rewrite (inc_none Hno). apply inc_none. intros i Hf. exact (Hno i (proj2 (facet_up t i s) Hf)).
  Qed.
End Shift.

Section Groups.
  Context {F : ordT} (z : F) (K : coeffT) (d d1 d2 : list (list F)).
  Add Field KFrg : (F_field K).
  Notation n := (length d).
  Notation m1 := (length d1).
  Notation m2 := (length d2).
  Variable t : F.
  Hypothesis Hn : n = m1 + m2.
  Hypothesis E1 : forall i j, i < m1 -> j < m1 -> dist z d i j = dist z d1 i j.
  Hypothesis E2 : forall i j, i < m2 -> j < m2 -> dist z d (m1 + i) (m1 + j) = dist z d2 i j.
  Hypothesis Ex : forall i j, i < m1 -> j < m2 -> olt t (dist z d i (m1 + j)).
  Context (phi : N_ord -> F) (D : N_ord -> vec K N_ord) (dim : N_ord -> Z) (l : list N_ord).
  Context (phi1 : N_ord -> F) (D1 : N_ord -> vec K N_ord) (dim1 : N_ord -> Z) (l1 : list N_ord).
  Context (phi2 : N_ord -> F) (D2 : N_ord -> vec K N_ord) (dim2 : N_ord -> Z) (l2 : list N_ord).
  Hypothesis X : rips_data z d phi D dim l.
  Hypothesis X1 : rips_data z d1 phi1 D1 dim1 l1.
  Hypothesis X2 : rips_data z d2 phi2 D2 dim2 l2.

  Lemma data_list (dd : list (list F)) ph DD di ll c : rips_data (K:=K) z dd ph DD di ll -> In c ll <-> exists u, simplex (length dd) u /\ c = code (length dd) u.
  Proof.
    intros (_ & _ & _ & k & Hk & _ & Hl). rewrite Hl. split; [intros (u & H1 & _ & H2); eauto|]. intros (u & H1 & H2). exists u. split; auto. split; auto. pose proof (simplex_length H1). lia.
  Qed.
  Lemma data_closed (dd : list (list F)) ph DD di ll c r : rips_data (K:=K) z dd ph DD di ll -> In c (cut ph ll t) -> DD c r <> f0 -> In r (cut ph ll t).
  Proof.
    intros HX Hc Hnz. apply in_cut in Hc. destruct Hc as [Hc Hle]. apply (data_list c HX) in Hc. destruct Hc as (u & Hu & ->).
    pose proof HX as (Hphi & (_ & HD) & _). destruct (HD u r Hu Hnz) as (v & i & Hv & Hf & ->). apply in_cut. split; [apply (data_list _ HX); eauto|].
    destruct (Hphi v Hv) as [(x & y & Hx & Hy & E) _]. destruct (Hphi u Hu) as [_ Hmax]. rewrite <- E. eapply ole_trans; [|exact Hle].
    destruct Hf as (a & w & b & -> & -> & _). apply Hmax; [clear - Hx|clear - Hy]; rewrite in_app_iff in *; simpl; tauto.
  Qed.
  Definition to_all (c : sum_ord N_ord N_ord) : N_ord :=
    match c with
    | inl c => match to_vec m1 c with Ok u => code n u | _ => 0%N end
    | inr c => match to_vec m2 c with Ok u => code n (up m1 u) | _ => 0%N end
    end.
  Definition to_sum (c : N_ord) : sum_ord N_ord N_ord :=
    match to_vec n c with
    | Ok u => if forallb (fun v => v <? m1) u then inl (code m1 u) else inr (code m2 (down m1 u))
    | _ => inl 0%N
    end.
  Lemma low_simplex u : simplex m1 u -> simplex n u.
  Proof. intros (H1 & H2 & H3). split; auto. split; auto. eapply Forall_impl; [|exact H3]. cbv beta. intros; lia. Qed.
  Lemma low_diam u : simplex m1 u -> phi (code n u) = phi1 (code m1 u).
  Proof.
    intros Hu. pose proof X as (Hphi & _). pose proof X1 as (Hphi1 & _). pose proof (Hphi u (low_simplex Hu)) as A. pose proof (Hphi1 u Hu) as B.
    assert (Hb : forall v, In v u -> v < m1) by (intros v Hv; exact (proj1 (Forall_forall _ _) (proj2 (proj2 Hu)) v Hv)).
    eapply (@diameter_unique F z d1 u); [|exact B]. destruct A as [(i & j & Hi & Hj & E) Hm]. split; [exists i, j; split; auto; split; auto; rewrite <- E1 by auto; exact E|].
    intros i' j' Hi' Hj'. rewrite <- E1 by auto. auto.
  Qed.
  Lemma high_diam u : simplex m2 u -> phi (code n (up m1 u)) = phi2 (code m2 u).
  Proof.
    intros Hu. pose proof X as (Hphi & _). pose proof X2 as (Hphi2 & _). assert (Hu' : simplex n (up m1 u)) by (eapply (@up_simplex' m1 m2 n); [lia|auto]). pose proof (Hphi _ Hu') as A. pose proof (Hphi2 u Hu) as B.
    assert (Hb : forall v, In v u -> v < m2) by (intros v Hv; exact (proj1 (Forall_forall _ _) (proj2 (proj2 Hu)) v Hv)).
    eapply (@diameter_unique F z d2 u); [|exact B]. destruct A as [(i & j & Hi & Hj & E) Hm]. apply in_map_iff in Hi, Hj. destruct Hi as (i0 & <- & Hi), Hj as (j0 & <- & Hj).
    split; [exists i0, j0; split; auto; split; auto; rewrite <- E2 by auto; exact E|].
    intros i' j' Hi' Hj'. rewrite <- E2 by auto. apply Hm; apply in_map; auto.
  Qed.
  (** a simplex present at [t] lies in one of the groups *)
  Lemma one_group u : simplex n u -> ole (phi (code n u)) t -> (forall v, In v u -> v < m1) \/ (forall v, In v u -> m1 <= v).
  Proof.
    intros Hu Hle. pose proof X as (Hphi & _). destruct (Hphi u Hu) as [_ Hm].
    assert (Hb : forall v, In v u -> v < n) by (intros v Hv; exact (proj1 (Forall_forall _ _) (proj2 (proj2 Hu)) v Hv)).
    destruct (forallb (fun v => v <? m1) u) eqn:Ea; [left; rewrite forallb_forall in Ea; intros v Hv; apply Nat.ltb_lt; auto|].
    right. intros v Hv. destruct (Nat.lt_ge_cases v m1) as [Hlt|]; auto. exfalso.
    assert (Hex : exists w, In w u /\ m1 <= w).
    { clear - Ea. induction u as [|x u IH]; [discriminate|]. cbn [forallb] in Ea. destruct (Nat.ltb_spec x m1) as [H|H]; [|exists x; simpl; auto]. destruct IH as (w & H1 & H2); auto. exists w. simpl; auto. }
    destruct Hex as (w & Hw & Hge). pose proof (Hm v w Hv Hw) as Hc. pose proof (Hb w Hw) as Hwn.
    assert (Ht : olt t (dist z d v w)) by (replace w with (m1 + (w - m1)) by lia; apply Ex; lia).
    apply olt_not_le in Ht. apply Ht. eapply ole_trans; eauto.
  Qed.
  Lemma to_all_low u : simplex m1 u -> to_all (inl (code m1 u)) = code n u.
  Proof. intros Hu. cbn [to_all]. now rewrite to_vec_code by apply Hu. Qed.
  Lemma to_all_high u : simplex m2 u -> to_all (inr (code m2 u)) = code n (up m1 u).
  Proof. intros Hu. cbn [to_all]. now rewrite to_vec_code by apply Hu. Qed.
  Lemma to_sum_low u : simplex m1 u -> to_sum (code n u) = inl (code m1 u).
  Proof.
    intros Hu. unfold to_sum. rewrite to_vec_code by apply (low_simplex Hu). assert (E : forallb (fun v => v <? m1) u = true) by (apply forallb_forall; intros v Hv; apply Nat.ltb_lt; exact (proj1 (Forall_forall _ _) (proj2 (proj2 Hu)) v Hv)). now rewrite E.
  Qed.
  Lemma to_sum_high u : simplex m2 u -> to_sum (code n (up m1 u)) = inr (code m2 u).
  Proof.
    intros Hu. unfold to_sum. assert (Hu' : simplex n (up m1 u)) by (eapply (@up_simplex' m1 m2 n); [lia|auto]). rewrite to_vec_code by apply Hu'.
    destruct u as [|x u]; [destruct Hu; congruence|]. cbn [up map forallb]. destruct (Nat.ltb_spec (m1 + x) m1) as [|_]; [lia|]. cbn [andb]. change (m1 + x :: map (Nat.add m1) u) with (up m1 (x :: u)). now rewrite down_up.
  Qed.
  (** the cells present at [t], sorted by group *)
  Lemma cut_cases c : In c (cut phi l t) <-> (exists u, simplex m1 u /\ c = code n u /\ ole (phi1 (code m1 u)) t) \/ (exists u, simplex m2 u /\ c = code n (up m1 u) /\ ole (phi2 (code m2 u)) t).
  Proof.
    rewrite in_cut, (data_list c X). split.
    - intros ((u & Hu & ->) & Hle). destruct (one_group Hu Hle) as [H|H].
      + left. assert (Hu1 : simplex m1 u) by (destruct Hu as (A & B & C); split; auto; split; auto; now apply Forall_forall). exists u. split; auto. split; auto. now rewrite <- low_diam.
      + right. assert (Hu1 : simplex m2 (down m1 u)) by (apply (@down_simplex m1 m2 n u); auto; lia). exists (down m1 u). split; auto. rewrite <- high_diam, up_down by auto. auto.
    - intros [(u & Hu & -> & Hle)|(u & Hu & -> & Hle)].
      + split; [exists u; split; auto; now apply low_simplex|]. now rewrite low_diam.
      + split; [exists (up m1 u); split; auto; eapply (@up_simplex' m1 m2 n); [lia|auto]|]. now rewrite high_diam.
  Qed.
  Notation L12 := (sl (cut phi1 l1 t) (cut phi2 l2 t)).
  Lemma sum_cases c : In c L12 <-> (exists u, simplex m1 u /\ c = inl (code m1 u) /\ ole (phi1 (code m1 u)) t) \/ (exists u, simplex m2 u /\ c = inr (code m2 u) /\ ole (phi2 (code m2 u)) t).
  Proof.
    destruct c as [c|c].
    - rewrite in_sl_l, in_cut, (data_list c X1). split.
      + intros ((u & Hu & ->) & Hle). left. eauto.
      + intros [(u & Hu & [= ->] & Hle)|(u & _ & E & _)]; [|discriminate]. eauto.
    - rewrite in_sl_r, in_cut, (data_list c X2). split.
      + intros ((u & Hu & ->) & Hle). right. eauto.
      + intros [(u & _ & E & _)|(u & Hu & [= ->] & Hle)]; [discriminate|]. eauto.
  Qed.
  Lemma simplex_nodup k u : simplex k u -> NoDup u.
  Proof. intros (_ & H & _). now apply sorted_nodup. Qed.
  Lemma cross_0 (u v : list nat) : u <> [] -> v <> [] -> simplex m1 u -> simplex m2 v -> (inc u (up m1 v) : option K) = f0 /\ (inc (up m1 v) u : option K) = f0.
  Proof.
    intros Hu0 Hv0 Hu Hv.
    assert (Hb : forall x, In x u -> In x (up m1 v) -> False).
    { intros x H1 H2. pose proof (proj1 (Forall_forall _ _) (proj2 (proj2 Hu)) x H1) as H3. cbv beta in H3. apply in_map_iff in H2. destruct H2 as (y & <- & _). lia. }
    assert (Hone : forall a, a <> [] -> exists x : nat, In x a) by (intros [|x a] H; [congruence|exists x; now left]).
    split; apply inc_none; intros i (a & w & b & E1' & E2' & _).
    - destruct (Hone (up m1 v)) as (x & Hx); [destruct v; [congruence|discriminate]|]. apply (Hb x); auto. rewrite E2' in Hx. rewrite E1'. rewrite in_app_iff in *. simpl. tauto.
    - destruct (Hone u Hu0) as (x & Hx). apply (Hb x); auto. rewrite E2' in Hx. rewrite E1'. rewrite in_app_iff in *. simpl. tauto.
  Qed.
  Lemma groups_betti q s b b1 b2 : ole s t -> persistent_betti phi dim (-1) l D q s t b -> persistent_betti phi1 dim1 (-1) l1 D1 q s t b1 -> persistent_betti phi2 dim2 (-1) l2 D2 q s t b2 -> b = b1 + b2.
  Proof.
    intros Hst H H1 H2. apply (@cut_betti K F N_ord _ _ _ _ _ _ _ _ _ Hst) in H, H1, H2. pose proof (sum_betti H1 H2) as H12. symmetry.
    pose proof X as (_ & HD & Hdim & k & _ & Hnd & _). pose proof X1 as (_ & HD1 & Hdim1 & k1 & _ & Hnd1 & _). pose proof X2 as (_ & HD2 & Hdim2 & k2 & _ & Hnd2 & _).
    refine (@iso_betti K F (sum_ord N_ord N_ord) N_ord (sphi phi1 phi2) (sg dim1 dim2) L12 (sD D1 D2) phi dim (cut phi l t) D (-1)%Z to_all to_sum _ _ _ _ _ _ _ _ _ q s t _ _ Hst H12 H).
    - apply sl_nodup; now apply NoDup_filter.
    - now apply NoDup_filter.
    - intros [c|c] [r|r] Hc Hnz; cbn [sD] in Hnz; try congruence.
      + apply in_sl_l. apply in_sl_l in Hc. eapply data_closed; [exact X1|exact Hc|exact Hnz].
      + apply in_sl_r. apply in_sl_r in Hc. eapply data_closed; [exact X2|exact Hc|exact Hnz].
    - intros c r. apply (data_closed (ph:=phi) (DD:=D) c r X).
    - intros c Hc. rewrite cut_cases. apply sum_cases in Hc. destruct Hc as [(u & Hu & -> & Hle)|(u & Hu & -> & Hle)].
      + rewrite to_all_low, to_sum_low by auto. split; eauto.
      + rewrite to_all_high, to_sum_high by auto. split; eauto.
    - intros c Hc. rewrite sum_cases. apply cut_cases in Hc. destruct Hc as [(u & Hu & -> & Hle)|(u & Hu & -> & Hle)].
      + rewrite to_sum_low, to_all_low by auto. split; eauto.
      + rewrite to_sum_high, to_all_high by auto. split; eauto.
    - intros c r Hc Hr. apply sum_cases in Hc, Hr. destruct Hc as [(u & Hu & -> & _)|(u & Hu & -> & _)]; destruct Hr as [(v & Hv & -> & _)|(v & Hv & -> & _)]; cbn [sD]; rewrite ?to_all_low, ?to_all_high by auto.
      + rewrite (sb_inc HD) by now apply low_simplex. now rewrite (sb_inc HD1).
      + rewrite (sb_inc HD); [|now apply low_simplex|eapply (@up_simplex' m1 m2 n); [lia|auto]]. apply cross_0; auto; [apply Hu|apply Hv].
      + rewrite (sb_inc HD); [|eapply (@up_simplex' m1 m2 n); [lia|auto]|now apply low_simplex]. apply cross_0; auto; [apply Hv|apply Hu].
      + rewrite (sb_inc HD) by (eapply (@up_simplex' m1 m2 n); [lia|auto]). rewrite (sb_inc HD2) by auto. apply inc_up. eapply simplex_nodup; eauto.
    - intros c Hc. apply sum_cases in Hc. destruct Hc as [(u & Hu & -> & _)|(u & Hu & -> & _)]; cbn [sg]; rewrite ?to_all_low, ?to_all_high by auto.
      + rewrite Hdim by now apply low_simplex. now rewrite Hdim1.
      + rewrite Hdim by (eapply (@up_simplex' m1 m2 n); [lia|auto]). rewrite Hdim2 by auto. unfold up. now rewrite map_length.
    - intros c Hc. apply sum_cases in Hc. destruct Hc as [(u & Hu & -> & _)|(u & Hu & -> & _)]; cbn [sphi]; rewrite ?to_all_low, ?to_all_high by auto; [now apply low_diam|now apply high_diam].
  Qed.
End Groups.
